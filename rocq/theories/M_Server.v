(** The ROS server's map pointer: /repo/interfaces/ros1/wavemap_ros/src/ros_server.cc (lines "rs:"), pipeline/pipeline.h. The server, the
    pipeline, its integrators and its operations each hold a shared pointer to a map. Maps live in a heap; a pointer is an
    address. What happens to the map that the integrators and operations point to is an arbitrary function, and so are
    clear() and threshold(). Calls come one after the other: ROS runs the callbacks of this node in one thread. *)
From Verif Require Import Base M_Num M_Stream M_FileIO.

Section SERVER.
Context {V : Type} (N : num V) (enc : V -> Z) (dec : Z -> V).
Notation any := (anymap (V := V)).
Context (clear threshold : any -> any) (allow_reset : bool).

(** The heap, the first free address, RosServer::occupancy_map_ (ros_server.h:78; None is null), Pipeline::occupancy_map_
    (pipeline.h:79, const) and the pointers of its integrators and operations (map_operation_base.h:27, const), and the
    files. *)
Record server := SV { s_heap : nat -> any; s_next : nat; s_ptr : option nat; s_pipe : nat; s_files : fs }.
Definition h_set (h : nat -> any) (k : nat) (m : any) : nat -> any := fun j => if Nat.eqb j k then m else h j.
(** The constructor, rs:50-86: the map is created, and its address is passed to the pipeline (rs:63) and through it
    (pipeline.cc:32, 58) or directly (rs:136-144) to integrators and operations *)
Definition new_server (m : any) (files : fs) : server := SV (fun _ => m) 1 (Some 0%nat) 0 files.

(** A measurement arrives: the pipeline's integrators and operations change the map they point to by [f], and operations such as
    PublishMapOperation publish the result. The services reset_map, save_map and load_map (rs:171-206). *)
Inductive vop := VMeasure (f : any -> any) | VReset | VSave (p : path) (e : wenv) | VLoad (now : Z) (p : path) (r : renv).
(** The published map, or the service's answer. [VEnded]: the program was killed or aborted. *)
Inductive vans := VPublished (m : any) | VAnswer (b : bool) | VLoaded (l : lres (V := V)) | VEnded.

(** None: out of fuel. The state None: the program has ended; the files remain. *)
Definition vstep (fuel : nat) (o : vop) (s : server) : option (vans * (server + fs)) :=
  match o with
  | VMeasure f => let m := f (s_heap s (s_pipe s)) in
                  Some (VPublished m, inl (SV (h_set (s_heap s) (s_pipe s) m) (s_next s) (s_ptr s) (s_pipe s) (s_files s)))
  (* rs:174-191 *)
  | VReset => if allow_reset
              then Some (VAnswer true, inl match s_ptr s with
                                           | Some k => SV (h_set (s_heap s) k (clear (s_heap s k))) (s_next s) (s_ptr s) (s_pipe s) (s_files s)
                                           | None => s
                                           end)
              else Some (VAnswer false, inl s)
  (* rs:157-165 *)
  | VSave p e => match s_ptr s with
                 | None => Some (VAnswer false, inl s)
                 | Some k => let m := threshold (s_heap s k) in
                             match mapToFile N enc fuel m p e (s_files s) with
                             | None => None
                             | Some (Returned b d) => Some (VAnswer b, inl (SV (h_set (s_heap s) k m) (s_next s) (s_ptr s) (s_pipe s) d))
                             | Some (Crashed d) => Some (VEnded, inr d)
                             end
                 end
  (* rs:167-169 *)
  | VLoad now p r => match fileToMap N dec fuel now p r (s_files s) with
                     | None => None
                     | Some LdAbort => Some (VEnded, inr (s_files s))
                     | Some LdKept => Some (VLoaded LdKept, inl s)
                     | Some LdNull => Some (VLoaded LdNull, inl (SV (s_heap s) (s_next s) None (s_pipe s) (s_files s)))
                     | Some (LdTrue m) => Some (VLoaded (LdTrue m), inl (SV (h_set (s_heap s) (s_next s) m) (S (s_next s)) (Some (s_next s)) (s_pipe s) (s_files s)))
                     end
  end.
(** A sequence of calls, up to the end of the program *)
Fixpoint vrun (fuel : nat) (ops : list vop) (s : server) : option (list vans * (server + fs)) :=
  match ops with
  | [] => Some ([], inl s)
  | o :: ops' => match vstep fuel o s with
                 | None => None
                 | Some (x, inr d) => Some ([x], inr d)
                 | Some (x, inl s') => match vrun fuel ops' s' with None => None | Some (l, t) => Some (x :: l, t) end
                 end
  end.
End SERVER.
