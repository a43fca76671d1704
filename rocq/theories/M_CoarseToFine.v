(** CoarseToFineIntegrator on a VolumetricOctree:
    /repo/library/cpp/src/core/integrator/projective/coarse_to_fine/coarse_to_fine_integrator.cc ("CF").
    As in M_Integrator.v, what is computed from the posed range image for a node is a function of its index: [o_type] CF:40-45,
    [o_sample] CF:27-31,55-59,68 (computeUpdate at the centre), [o_accept] CF:60-67. *)
From Verif Require Import Base M_IntMath M_NdtreeIndex M_Num M_Haar3 M_Ndtree M_Wavelet M_VolOctree M_Integrator.

Section CTF.
Context {V : Type} (N : num V) (keps : V) (W : oracle V).
Notation tree := (node V).
(** CF:31-34,68-71: addToCellValue if kEpsilon < |sample| *)
Definition ctf_apply (C : wconfig (V := V)) (t : tree) (idx : oidx) : tree :=
  if nltb N keps (nabs N (o_sample W idx)) then vo_add N C t idx (o_sample W idx) else t.
(** The while loop, CF:21-80; the head of the list is the top of the stack. None if [fuel] iterations do not suffice. *)
Fixpoint ctf_loop (fuel : nat) (C : wconfig (V := V)) (stack : list oidx) (t : tree) : option tree :=
  match stack with
  | [] => Some t
  | idx :: st =>
      match fuel with
      | O => None
      | S fuel' =>
          if oh idx =? 0 then ctf_loop fuel' C st (ctf_apply C t idx)
          else if is_unobserved (o_type W idx) then ctf_loop fuel' C st t
          else if (oh idx =? 0) || o_accept W idx then ctf_loop fuel' C st (ctf_apply C t idx)
          else ctf_loop fuel' C (fold_left (fun s c => ochild idx c :: s) [0; 1; 2; 3; 4; 5; 6; 7] st) t
      end
  end.
(** VolumetricOctree::getFirstChildIndices, include/wavemap/core/map/impl/volumetric_octree_inl.h:10-17 *)
Definition vo_firstChildren (C : wconfig (V := V)) : list oidx :=
  map (fun c => vo_external C (ochild (OI (cT C) (I3 0 0 0)) c)) [0; 1; 2; 3; 4; 5; 6; 7].
(** updateMap, CF:10-81 *)
Definition ctf_updateMap (fuel : nat) (C : wconfig (V := V)) (t : tree) : option tree :=
  ctf_loop fuel C (fold_left (fun s i => i :: s) (vo_firstChildren C) []) t.
End CTF.
