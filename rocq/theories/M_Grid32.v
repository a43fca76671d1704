(** Grid iterator in 32-bit ints: /repo/library/cpp/include/wavemap/core/utils/iterate/grid_iterator.h, as M_Grid.v but with the range of int
    (common.h:25 [IndexElement]). An increment beyond it is undefined behaviour: None. *)
From Verif Require Import Base M_Grid M_IndexInt M_IntMath32.

(** grid_iterator.h:34-39 *)
Fixpoint grid_carry_32 (mn mx cur : list Z) : option (list Z) :=
  match cur, mn, mx with
  | c :: (c2 :: cs) as cur', m :: mn', M :: mx' =>
      if M <? c then ibind (int_result (c2 + 1)) (fun c2' => option_map (cons m) (grid_carry_32 mn' mx' (c2' :: cs)))
      else option_map (cons c) (grid_carry_32 mn' mx' (c2 :: cs))
  | _, _, _ => Some cur
  end.
(** grid_iterator.h:32-41 *)
Definition grid_next_32 (mn mx cur : list Z) : option (list Z) :=
  match cur with [] => Some [] | c :: cs => ibind (int_result (c + 1)) (fun c' => grid_carry_32 mn mx (c' :: cs)) end.
(** grid_iterator.h:25-29 *)
Definition grid_end_32 (mn mx : list Z) : option (list Z) := ibind (int_result (last mx 0 + 1)) (fun e => Some (removelast mn ++ [e])).
(** The loop `for (const auto& index : Grid(min, max))`, grid_iterator.h:32-50 and 59-60, [e] being the end; [Some None] if [fuel] iterations do not reach the end *)
Fixpoint grid_loop_32 (fuel : nat) (mn mx e cur : list Z) : option (option (list (list Z))) :=
  if list_eqb cur e then Some (Some [])
  else match fuel with
       | O => Some None
       | S fuel' => match grid_next_32 mn mx cur with Some nx => option_map (option_map (cons cur)) (grid_loop_32 fuel' mn mx e nx) | None => None end
       end.
(** grid_iterator.h:23-24, 59-60: begin at the minimum index *)
Definition grid_visit_32 (fuel : nat) (mn mx : list Z) : option (option (list (list Z))) :=
  match grid_end_32 mn mx with Some e => grid_loop_32 fuel mn mx e mn | None => None end.
