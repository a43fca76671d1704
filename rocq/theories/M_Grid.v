(** Grid iterator: /repo/library/cpp/include/wavemap/core/utils/iterate/grid_iterator.h.
    An Index<dim> is the list of its components, so the model covers every dimension >= 1.
    Components are unbounded integers (no int32 overflow). *)
From Verif Require Import Base.

(** The carry loop of Iterator::operator++, grid_iterator.h:34-39: for every axis but the last, if the
    component exceeds the maximum, reset it and increment the next one. *)
Fixpoint grid_carry (mn mx cur : list Z) : list Z :=
  match cur, mn, mx with
  | c :: (c2 :: cs) as cur', m :: mn', M :: mx' =>
      if M <? c then m :: grid_carry mn' mx' (c2 + 1 :: cs) else c :: grid_carry mn' mx' (c2 :: cs)
  | _, _, _ => cur
  end.
(** Iterator::operator++, grid_iterator.h:32-41 *)
Definition grid_next (mn mx cur : list Z) : list Z :=
  match cur with [] => [] | c :: cs => grid_carry mn mx (c + 1 :: cs) end.
(** Iterator(grid, end = true), grid_iterator.h:25-29: min_index with the last component replaced *)
Definition grid_end (mn mx : list Z) : list Z := removelast mn ++ [last mx 0 + 1].
(** operator==, grid_iterator.h:47-49: equality of the current indices *)
Definition list_eqb (a b : list Z) : bool := if list_eq_dec Z.eq_dec a b then true else false.
(** `for (const auto& index : Grid(min, max)) visit(index)`: the visited indices in order; [None] if
    [fuel] iterations do not reach the end. *)
Fixpoint grid_loop (fuel : nat) (mn mx cur : list Z) : option (list (list Z)) :=
  if list_eqb cur (grid_end mn mx) then Some []
  else match fuel with
       | O => None
       | S fuel' => option_map (cons cur) (grid_loop fuel' mn mx (grid_next mn mx cur))
       end.
Definition grid_visit (fuel : nat) (mn mx : list Z) : option (list (list Z)) := grid_loop fuel mn mx mn.
