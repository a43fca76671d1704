(** Subtree iterators: /repo/library/cpp/include/wavemap/core/utils/iterate/subtree_iterator.h and
    impl/subtree_iterator_inl.h, over the n-d tree nodes of M_Ndtree.v. A node pointer is modelled by the
    node together with the path of child indices leading to it from the root of the iteration, so that two
    different nodes with equal contents are different pointers. *)
From Verif Require Import Base M_Haar3 M_Ndtree.

Section SUBTREE.
Context {A : Type}.
Definition ptr := (list Z * node A)%type.
Definition child_ids : list Z := [0; 1; 2; 3; 4; 5; 6; 7].
Definition pchild (x : ptr) (c : Z) : option ptr := option_map (fun ch => (fst x ++ [c], ch)) (getChild (snd x) c).

(** Preorder: enqueueNodeChildren, subtree_iterator_inl.h:15-26 (children 7 down to 0, each put in front) *)
Definition pre_enqueue (x : ptr) (deque : list ptr) : list ptr :=
  if hasChildrenArray (snd x)
  then fold_left (fun D c => match pchild x c with Some y => y :: D | None => D end) (rev child_ids) deque
  else deque.
(** operator++, subtree_iterator_inl.h:5-13 *)
Definition pre_next (deque : list ptr) : list ptr :=
  match deque with [] => [] | x :: D => pre_enqueue x D end.
(** Constructor, subtree_iterator.h:62-66 *)
Definition pre_begin (root : node A) : list ptr := [([], root)].

(** Breadth-first: enqueueNodeChildren, subtree_iterator_inl.h:86-98 (children 0 to 7, each at the back) *)
Definition bfs_enqueue (x : ptr) (deque : list ptr) : list ptr :=
  if hasChildrenArray (snd x)
  then fold_left (fun D c => match pchild x c with Some y => D ++ [y] | None => D end) child_ids deque
  else deque.
(** operator++, subtree_iterator_inl.h:76-84 *)
Definition bfs_next (deque : list ptr) : list ptr :=
  match deque with [] => [] | x :: D => bfs_enqueue x D end.

(** Range-based for loop over a Subtree (subtree_iterator.h:124-135): the iterator equals end() iff its
    deque is empty (subtree_iterator.h:31-36); [None] if it takes more than [fuel] steps. *)
Fixpoint iterate (next : list ptr -> list ptr) (fuel : nat) (deque : list ptr) : option (list ptr) :=
  match deque with
  | [] => Some []
  | x :: _ => match fuel with O => None | S f => option_map (cons x) (iterate next f (next deque)) end
  end.

(** Postorder: StackElement, subtree_iterator.h:89-96: (node, last_expanded_child_idx) *)
Definition selt := (ptr * Z)%type.
Fixpoint first_some {B} (i : Z) (l : list (option B)) : option (Z * B) :=
  match l with [] => None | Some b :: _ => Some (i, b) | None :: l' => first_some (i + 1) l' end.
(** enqueueNodeAndFirstChildren, subtree_iterator_inl.h:53-74: [post_enqueue n p st] pushes onto the stack
    [st] (top first) the node [n] with path [p] and its first descendants. *)
Fixpoint post_enqueue (n : node A) (p : list Z) (st : list selt) : list selt :=
  match n with Node _ kids =>
    match kids with
    | None => ((p, n), 8) :: st
    | Some k =>
        match first_some 0 (olist (omap (option_map post_enqueue) k)) with
        | Some (i, enqueue_child) => enqueue_child (p ++ [i]) (((p, n), i) :: st)
        | None => st
        end
    end
  end.
(** The loop at subtree_iterator_inl.h:40-49, with [j] running from last_expanded_child_idx + 1 *)
Fixpoint post_advance (js : list Z) (x : ptr) (st : list selt) : list selt :=
  match js with
  | [] => (x, 8) :: st
  | j :: js' => match pchild x j with
                | Some (q, ch) => post_enqueue ch q ((x, j) :: st)
                | None => post_advance js' x st
                end
  end.
(** operator++, subtree_iterator_inl.h:28-51 *)
Definition post_next (st : list selt) : list selt :=
  match st with
  | [] | [_] => []
  | _ :: (x, i) :: st' => post_advance (filter (fun j => i <? j) child_ids) x st'
  end.
(** Constructor, subtree_iterator.h:81-85 *)
Definition post_begin (root : node A) : list selt := post_enqueue root [] [].
Fixpoint post_iterate (fuel : nat) (st : list selt) : option (list ptr) :=
  match st with
  | [] => Some []
  | (x, _) :: _ => match fuel with O => None | S f => option_map (cons x) (post_iterate f (post_next st)) end
  end.
End SUBTREE.
