(** Conversions between log-odds and probabilities: /repo/library/cpp/include/wavemap/core/utils/query/probability_conversions.h ("pc"). *)
From Verif Require Import Base M_ApproxFloat M_FloatIndex.
From Coq Require Import Reals.
From Flocq Require Import Core IEEE754.BinarySingleNaN.
Open Scope R_scope.

(** ** With real numbers *)
(** logOddsToProbability, pc:14-18 *)
Definition logOddsToProbability (log_odds : R) : R := let odds := exp log_odds in odds / (1 + odds).
(** probabilityToLogOdds, pc:20-23 *)
Definition probabilityToLogOdds (probability : R) : R := let odds := probability / (1 - probability) in ln odds.
(** logOddsToColor, /repo/interfaces/ros1/wavemap_rviz_plugin/include/wavemap_rviz_plugin/utils/color_conversions.h:9-21: the grey level *)
Definition logOddsToGrey (log_odds : R) : R := let cell_odds := exp log_odds in let cell_prob := cell_odds / (1 + cell_odds) in 1 - cell_prob.

(** ** In single precision; [fexp] is std::exp for floats *)
Section FLOAT.
Context (fexp : float32 -> float32).
(** pc:14-18 *)
Definition flogOddsToProbability (log_odds : float32) : float32 := let odds := fexp log_odds in fdiv odds (fadd fone odds).
End FLOAT.
