(** C40, continued: the sensor boxes of the Ouster projector. *)
From Verif Require Import Base M_IntMath M_Point P_Point M_Image M_RangeBounds P_RangeBounds M_Measure F_Measure P_Measure M_Intersector P_Intersector P_Intersector3 M_Ouster.
From Coq Require Import QArith Qround Qabs Lqa Lia.
Close Scope Z_scope.
Open Scope Q_scope.

(** The depths of the box are distances to the sensor's origin, but the sensor measures from the origin of its beams (with the
    default offsets 2.8 cm to the side and 3.6 cm above; C66 bounds the difference). A sensor that is more accurate than that: a point
    of the cell lies behind the surface measured by its pixel and gets an occupied update, but the cell is declared fully free. *)
Definition ou_cfg := OU (CP (- (155 # 100)) (155 # 100) 31) (CP (- (1)) 1 21) (2767 # 100000) (3618 # 100000).
Definition ou_W := Box (V3 (298 # 1000) (- (2 # 1000)) (- (4002 # 1000))) (V3 (302 # 1000) (2 # 1000) (- (3998 # 1000))).
Definition ou_w := V3 (3 # 10) 0 (- (4)).
Definition ou_mm := MM (1 # 100) (5 # 1000) (1 # 2) (1 # 2) kNearestNeighbor.
Definition ou_im : img Q := Img 31 21 (fun _ _ => 4040 # 1000).
Theorem C40_ouster_box_refuted : exists cfg im W R t w mm,
  ouster_isValid cfg = true /\ ou_beam_origin cfg == 2767 # 100000 /\ ou_z_offset cfg == 3618 # 100000 /\
  orthonormal R /\ in_box W w /\ containsPoint W t = false /\ proper_config mm /\
  valid_setup (ouster_base cfg) im (axis_periodic (ou_azimuth cfg)) 0 /\
  determineUpdateType (ouster_base cfg) im (axis_periodic (ou_azimuth cfg)) (1 # 2) 200 0 (range_front mm) (range_back mm) false
    (ouster_aabb ex_sqrt cfg W R t) = Some kFullyFree /\
  let s := ouster_sensor ex_sqrt cfg (sensor_frame R t w) in
  zmax (ouster_aabb ex_sqrt cfg W R t) + (3 # 100) < snd s /\
  0 < computeUpdate (1 # 2) 200 (ray_computeUpdate ex_log mm round_away (ouster_base cfg) im) s.
Proof.
  exists ou_cfg, ou_im, ou_W, id_R, (V3 0 0 0), ou_w, ou_mm.
  split; [vm_compute; reflexivity|]. split; [reflexivity|]. split; [reflexivity|]. split; [repeat split; reflexivity|].
  split; [unfold in_box; cbn; repeat split; apply Qle_bool_iff; reflexivity|]. split; [vm_compute; reflexivity|].
  split; [unfold proper_config; cbn; repeat split; reflexivity|].
  split; [split; [reflexivity|split; [reflexivity|split; [apply Qle_refl|split; [vm_compute; repeat split|vm_compute; discriminate]]]]|].
  split; [vm_compute; reflexivity|]. cbv zeta. split; vm_compute; reflexivity.
Qed.
Print Assumptions C40_ouster_box_refuted.
