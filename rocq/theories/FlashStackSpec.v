(** Vocabulary for C105: networks whose weights are in one flash image.  The flash server and the runtime are not in the repository: by their documented
    contract a load operator of network [i] reads at its address relative to the start of the parameters of engine [i]
    (examples/app_flash_two_models/README.rst; python/xmos_ai_tools/xformer/flash.py 8-14). *)
From Coq Require Import List ZArith Bool Arith.
Import ListNotations.
From Verif Require Import HostModel HostSpec.
Local Open Scope Z_scope.

(** What network [i] finds: the bytes of the image from the address in word 1 of the header of engine [i]. *)
Definition served (image : list Z) (i : nat) : list Z := skipn (Z.to_nat (entry image i 1)) image.
(** The image on the device: the programmer swaps the nibbles of the file back. *)
Definition programmed (file : list Z) : list Z := map swap_nibbles file.
(** The RAM of the other tile starts with a header of its own: four bytes of version, then the same words. *)
Definition served_by_tile (array : list Z) : list Z := skipn (Z.to_nat (word_at array 8)) array.
(** The files hold bytes. *)
Definition byte_files (fs : String.string -> option (list Z)) : Prop := forall n d, fs n = Some d -> Forall is_byte d.
