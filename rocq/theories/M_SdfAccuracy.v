(** The accuracy that the distance field generators declare, as the single precision numbers of the code. Files under
    /repo/library/cpp/include/wavemap/core/utils/sdf/ *)
From Verif Require Import Base.
From Coq Require Import QArith.
(** quasi_euclidean_sdf_generator.h:13-14 *)
Definition quasi_kMaxRelativeUnderEstimate : Q := 5368709 # 536870912.
Definition quasi_kMaxRelativeOverEstimate : Q := 9059697 # 67108864.
(** full_euclidean_sdf_generator.h:27-28 *)
Definition full_kMaxRelativeUnderEstimate : Q := 5368709 # 536870912.
Definition full_kMaxRelativeOverEstimate : Q := 5368709 # 536870912.
