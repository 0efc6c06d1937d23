(** Model of the memory plan report: xformer/Analysis/MemoryPlan.cpp 338-424
    (getOrdinalCharacter, printMemoryPlan), printed by xformer/XCoreOptMain.cpp 206-221 for
    the plan without overlapping. *)
From Coq Require Import Ascii String List ZArith Bool Arith.
Import ListNotations.
From Verif Require Import MemPlanModel.
Local Open Scope list_scope.
Local Open Scope Z_scope.

(** MemoryPlan.cpp 338-347, on a char. *)
Definition ordinal_character (i : Z) : ascii :=
  if i <? 10 then ascii_of_nat (Z.to_nat (48 + i))
  else if i <? 36 then ascii_of_nat (Z.to_nat (97 + (i - 10)))
  else if i <? 62 then ascii_of_nat (Z.to_nat (65 + (i - 36)))
  else "*"%char.

(** A computation on C++ ints: [None] on signed overflow. *)
Definition int_ok (z : Z) : option Z :=
  if (- 2147483648 <=? z) && (z <=? 2147483647) then Some z else None.

(** 366: kLineWidth. *)
Definition line_width : Z := 60.

(** 311-317: nonConstantAllocatedValues with nonConstantOffsets, in id order. *)
Definition non_constant (pl : plan) : alloc :=
  filter (fun e => negb (vi_const (p_info pl (fst e)))) (p_alloc pl).

(** 367-380: the highest end (at least 60) and the last operation id.  The sizes are those of
    the member valueInfo (build), not of the copy of getAllocatedOffsets. *)
Fixpoint extent (info : vmap) (al : alloc) (max_size max_time : Z) : option (Z * Z) :=
  match al with
  | [] => Some (max_size, max_time)
  | (v, offset) :: tl =>
      match int_ok (offset + vi_size (info v)) with
      | None => None
      | Some size =>
          extent info tl (if size >? max_size then size else max_size)
                 (if vi_last (info v) >? max_time then vi_last (info v) else max_time)
      end
  end.

(** 408-412 for one n: a write outside the 60 characters is undefined. *)
Definition mark (line : list ascii) (n : Z) (c : ascii) : option (list ascii) :=
  if (0 <=? n) && (n <? Z.of_nat (length line)) then
    let k := Z.to_nat n in
    let new := if Ascii.eqb (nth k line " "%char) "."%char then c else "!"%char in
    Some (firstn k line ++ new :: skipn (S k) line)
  else None.

(** 407-413: [count] iterations starting at n. *)
Fixpoint mark_range (line : list ascii) (n : Z) (count : nat) (c : ascii) : option (list ascii) :=
  match count with
  | O => Some line
  | S k => match mark line n c with
           | None => None
           | Some line' => mark_range line' (n + 1) k c
           end
  end.

(** 387-414: the loop over the buffers at time t; [i] is the index of the first one. *)
Fixpoint line_loop (info : vmap) (max_size t : Z) (al : alloc) (i : Z)
         (line : list ascii) (memory_use peak : Z) : option (list ascii * Z * Z) :=
  match al with
  | [] => Some (line, memory_use, peak)
  | (v, offset) :: tl =>
      if (t <? vi_first (info v)) || (t >? vi_last (info v))
      then line_loop info max_size t tl (i + 1) line memory_use peak
      else if offset =? -1
      then line_loop info max_size t tl (i + 1) line memory_use peak
      else
        let size := vi_size (info v) in
        let peak' := if peak <? offset + size then offset + size else peak in
        match int_ok (memory_use + size), int_ok (offset * line_width),
              int_ok ((offset + size) * line_width) with
        | Some use', Some a, Some b =>
            let line_start := Z.quot a max_size in
            let line_end := Z.quot b max_size in
            match mark_range line line_start (Z.to_nat (line_end - line_start))
                             (ordinal_character i) with
            | None => None
            | Some line' => line_loop info max_size t tl (i + 1) line' use' peak'
            end
        | _, _, _ => None
        end
  end.

(** One printed line: operation, time, columns, the two sizes in kilobytes. *)
Record rline := RL { rl_op : okind; rl_time : Z; rl_cols : list ascii; rl_used : Z; rl_top : Z }.

(** 57-61: the vector [operations]. *)
Definition operations (g : graph) : list op :=
  filter (fun o => has_op_id (o_kind o)) (g_ops g).

(** 383-422 for one t. *)
Definition report_line (g : graph) (al : alloc) (max_size t : Z) : option rline :=
  match line_loop (build g) max_size t al 0
          (repeat "."%char (Z.to_nat line_width)) 0 0 with
  | None => None
  | Some (line, memory_use, peak) =>
      match nth_error (operations g) (Z.to_nat t), int_ok (memory_use + 1023), int_ok (peak + 1023) with
      | Some o, Some u, Some p => Some (RL (o_kind o) t line (Z.quot u 1024) (Z.quot p 1024))
      | _, _, _ => None
      end
  end.

Fixpoint all_some {A} (l : list (option A)) : option (list A) :=
  match l with
  | [] => Some []
  | None :: _ => None
  | Some x :: tl => match all_some tl with Some r => Some (x :: r) | None => None end
  end.

(** 349-424: [None] is undefined behaviour.  Simplification: the operation is printed by its
    kind; the heading is not modelled. *)
Definition print_memory_plan (g : graph) (pl : plan) : option (list rline) :=
  let al := non_constant pl in
  match extent (build g) al line_width 0 with
  | None => None
  | Some (max_size, max_time) =>
      all_some (map (fun t => report_line g al max_size (Z.of_nat t))
                    (seq 0 (Z.to_nat (max_time + 1))))
  end.
