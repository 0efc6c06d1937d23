(** Model of the example applications around the model: the copy of the sample image to the input tensor and the search of the best classes.
    Files, in /repo/examples: app_mobilenetv2/src/support.cpp and app_yolov8_classification/src/support.cpp (identical),
    app_single_model_on_two_tiles/src/support.cpp and app_single_model_on_one_tile_and_DDR/src/support.cpp (same function run()),
    app_no_flash/src, app_flash_single_model/src, app_profiling/src, app_flash_two_models/src (the two-class report).
    Simplifications: addresses are unbounded integers, address 0 is tensor_arena[0]; int does not overflow (sizes and indices below 2^31);
    the text printed is represented by the numbers in it; dequantize_output (a product of floats) is not modelled. *)
From Coq Require Import List ZArith Bool.
Import ListNotations.
From Verif Require Import MemPlanModel MemExecSpec.
Local Open Scope Z_scope.

(** app_mobilenetv2/src/support.cpp 14-15: the image is the initial contents of the arena. *)
Definition image_loaded (image : list Z) (m : memory) : Prop :=
  forall i, (i < length image)%nat -> m (Z.of_nat i) = nth i image 0.

(** app_mobilenetv2/src/support.cpp 25-27: p[i] = tensor_arena[i] - 128, from the first byte on; [p]: offset of the input tensor in the arena.
    A byte is its unsigned value; the int8 stored is the difference modulo 256. *)
Fixpoint copy_image (p : Z) (i : Z) (n : nat) (m : memory) : memory :=
  match n with
  | O => m
  | S n' => copy_image p (i + 1) n' (fun a => if a =? p + i then (m i - 128) mod 256 else m a)
  end.

(** app_mobilenetv2/src/support.cpp 31-39; the state is (max, maxIndex). *)
Fixpoint best_loop (out : list Z) (i : Z) (s : Z * Z) : Z * Z :=
  match out with
  | [] => s
  | x :: tl => best_loop tl (i + 1) (if x >? fst s then (x, i) else s)
  end.
Definition best_class (out : list Z) : Z * Z := best_loop out 0 (-128, -1).

(** app_single_model_on_two_tiles/src/support.cpp 54-71; the state is (max1, maxIndex1), (max2, maxIndex2), (max3, maxIndex3). *)
Fixpoint top_loop (out : list Z) (i : Z) (s : (Z * Z) * (Z * Z) * (Z * Z)) : (Z * Z) * (Z * Z) * (Z * Z) :=
  match out with
  | [] => s
  | x :: tl => let '(s1, s2, s3) := s in top_loop tl (i + 1) (if x >? fst s1 then ((x, i), s1, s2) else s)
  end.
Definition top_classes (out : list Z) : (Z * Z) * (Z * Z) * (Z * Z) := top_loop out 0 ((-128, -1), (-128, -1), (-128, -1)).

(** app_flash_single_model/src/support.cpp 14, 17 (and the other two-class applications): label ([true]: "Human") and percentage. *)
Definition human_report (o0 o1 : Z) : bool * Z := (negb (o0 >? o1), Z.quot ((o1 + 128) * 100) 255).
