(** * C91: the configured logging level is the one that takes effect *)
From Verif Require Import Base M_Config P_Config M_Factory P_Factory M_Logging.
From Coq Require Import String QArith.
Close Scope Q_scope.
Open Scope Z_scope.
Open Scope list_scope.

(** ** Vocabulary *)
(** Severities in ascending order and their names in the configuration *)
Definition rank (s : severity) : Z := match s with Debug => 0 | Info => 1 | Warn => 2 | Error => 3 | Fatal => 4 end.
Definition names_of : list (string * severity) := [("debug", Debug); ("info", Info); ("warning", Warn); ("error", Error); ("fatal", Fatal)]%string.
(** glog's number of a severity; it has no debug messages *)
Definition glog_number (s : severity) : option Z := match s with Debug => None | Info => Some 0 | Warn => Some 1 | Error => Some 2 | Fatal => Some 3 end.
(** A glog with this threshold prints exactly the messages of severity [l] and above. *)
Definition glog_prints_from (minloglevel : Z) (l : severity) : Prop := forall m g, glog_number m = Some g -> (minloglevel <= g <-> rank l <= rank m).
(** The general settings select a level by name. *)
Definition selects (general : list (string * pvalue)) (name : string) : Prop :=
  exists v, In ("logging_level"%string, v) general /\ (v = PString name \/ exists m, v = PMap m /\ mfind m "type" = Some (PString name)).

(** ** Proof *)
Lemma ros_name name i : ts_from_name logging_level_names name = Some i -> exists l, In (name, l) names_of /\ i = rank l.
Proof.
  unfold ts_from_name, ts_toTypeId, logging_level_names, ts_search.
  destruct (String.eqb_spec name "debug") as [->|]; [intros H; injection H as <-; exists Debug; cbn; tauto|].
  destruct (String.eqb_spec name "info") as [->|]; [intros H; injection H as <-; exists Info; cbn; tauto|].
  destruct (String.eqb_spec name "warning") as [->|]; [intros H; injection H as <-; exists Warn; cbn; tauto|].
  destruct (String.eqb_spec name "error") as [->|]; [intros H; injection H as <-; exists Error; cbn; tauto|].
  destruct (String.eqb_spec name "fatal") as [->|]; [intros H; injection H as <-; exists Fatal; cbn; tauto|].
  discriminate.
Qed.
Lemma name_ros name l : In (name, l) names_of -> ts_from_name logging_level_names name = Some (rank l).
Proof. unfold names_of. cbn [In]. intros H. repeat (destruct H as [H|H]; [injection H as <- <-; reflexivity|]). contradiction. Qed.
Lemma level_effect l : glog_prints_from (ros_applyToGlog (rank l)) l /\ applyToRosConsole (rank l) = Some l.
Proof.
  split; [|destruct l; reflexivity]. intros m g H.
  assert (E : ros_applyToGlog (rank l) = match l with Debug => 0 | Info => -1 | Warn => 1 | Error => 2 | Fatal => 3 end) by (destruct l; reflexivity).
  rewrite E. destruct l, m; try discriminate H; injection H as <-; cbn [rank]; lia.
Qed.

(** ** Theorems *)
(** A running server prints what the configured level says, through both loggers: the named level, or the level "info" if the configuration
    names none. *)
Theorem C91_server : forall pi threads cfg s, (forall ns p, cfg ns = Some p -> pwf p) ->
  server_start pi threads (fun ns => option_map to_ros (cfg ns)) = Made s ->
  exists general l, section_map cfg "general" general /\
    ((exists name, selects general name /\ In (name, l) names_of) \/ ((forall name l', selects general name -> ~ In (name, l') names_of) /\ l = Info)) /\
    glog_prints_from (fst (server_logging s)) l /\ snd (server_logging s) = Some l.
Proof.
  intros pi threads cfg s W H. destruct (C77_server pi threads cfg s W H) as ((gp & mp & Sg & [_ L] & _) & _).
  specialize (L "logging_level"%string (KType logging_level_names) (CType 1) ltac:(unfold RosServerConfig; cbn [In]; auto)). destruct L as [L1 L2].
  assert (D : (exists name l, selects gp name /\ In (name, l) names_of) \/ (forall name l, selects gp name -> ~ In (name, l) names_of)).
  { clear - gp. assert (Dn : forall name, (exists l, In (name, l) names_of) \/ (forall l, ~ In (name, l) names_of)).
    { intros name. destruct (ts_from_name logging_level_names name) as [i|] eqn:E; [left|right].
      - destruct (ros_name name i E) as (l & Hl & _). eauto.
      - intros l Hl. rewrite (name_ros name l Hl) in E. discriminate. }
    induction gp as [|[n v] gp IH]; [right; intros name l (v & [] & _)|]. destruct IH as [(name & l & (v' & Hv & S) & N)|IH]; [left; exists name, l; split; [exists v'; split; [right; exact Hv|exact S]|exact N]|].
    destruct (string_dec n "logging_level") as [->|D].
    - assert (Ds : (exists name, v = PString name \/ exists m, v = PMap m /\ mfind m "type" = Some (PString name)) \/
        forall name, ~ (v = PString name \/ exists m, v = PMap m /\ mfind m "type" = Some (PString name))).
      { destruct v as [| | |str| |m]; try (right; intros name [E|(m' & E & _)]; discriminate).
        - left. eauto.
        - destruct (mfind m "type") as [[| | |str| |]|] eqn:E; try (right; intros name [X|(m' & X & Y)]; [discriminate|injection X as <-; congruence]). left. exists str. right. eauto. }
      destruct Ds as [[name S]|S].
      + destruct (Dn name) as [[l N]|N]; [left; exists name, l; split; [exists v; split; [left; reflexivity|exact S]|exact N]|].
        right. intros name' l' (v' & [E|Hv] & S'); [|apply IH; exists v'; auto]. injection E as <-. assert (name' = name); [|subst; apply N].
        destruct S as [->|(m & -> & Sm)], S' as [E|(m' & E & Sm')]; try discriminate; injection E; intros; subst; congruence.
      + right. intros name' l' (v' & [E|Hv] & S'); [|apply IH; exists v'; auto]. injection E as <-. destruct (S name' S').
    - right. intros name' l' (v' & [E|Hv] & S'); [congruence|apply IH; exists v'; auto]. }
  assert (Fin : forall l, mfind (s_general s) "logging_level" = Some (CType (rank l)) -> glog_prints_from (fst (server_logging s)) l /\ snd (server_logging s) = Some l).
  { intros l E. unfold server_logging. cbn [fst snd]. unfold ct. rewrite E. apply level_effect. }
  destruct D as [(name & l & (v & Hv & S) & N)|D].
  - exists gp, l. split; [exact Sg|]. split; [left; exists name; split; [exists v; auto|exact N]|]. apply Fin. apply (L1 v (CType (rank l)) Hv).
    exists name, (rank l). split; [exact S|]. split; [apply name_ros; exact N|reflexivity].
  - exists gp, Info. split; [exact Sg|]. split; [right; auto|]. apply Fin. apply L2. intros v x Hv (name & i & S & E & _).
    destruct (ros_name name i E) as (l & N & _). apply (D name l); [exists v; auto|exact N].
Qed.
(** Python: a level takes effect if glog has it; other names, "debug" among them, change nothing. *)
Theorem C91_python : forall before name,
  (forall l g, In (name, l) names_of -> glog_number l = Some g -> glog_prints_from (set_level before name) l) /\
  ((forall l g, In (name, l) names_of -> glog_number l <> Some g) -> set_level before name = before).
Proof.
  intros before name. split.
  - intros l g H G. unfold names_of in H. cbn [In] in H. repeat (destruct H as [H|H]; [injection H as <- <-; try discriminate G; intros m k E; destruct m; try discriminate E; injection E as <-; cbn [rank]; unfold set_level; cbn; lia|]). contradiction.
  - intros H. unfold set_level, ts_from_name, ts_toTypeId, level_names, ts_search.
    destruct (String.eqb_spec name "info") as [->|]; [exfalso; apply (H Info 0); cbn; tauto|].
    destruct (String.eqb_spec name "warning") as [->|]; [exfalso; apply (H Warn 1); cbn; tauto|].
    destruct (String.eqb_spec name "error") as [->|]; [exfalso; apply (H Error 2); cbn; tauto|].
    destruct (String.eqb_spec name "fatal") as [->|]; [exfalso; apply (H Fatal 3); cbn; tauto|].
    reflexivity.
Qed.
(** ** What is not so *)
(** The library's counterpart of a valid level of the ROS server need not be valid: "info" becomes "Invalid". C91_server holds nevertheless,
    because glog takes the invalid number -1 as "print everything". *)
Theorem C91_conversion_refuted : exists id, ts_isValid logging_level_names id = true /\ ts_toStr logging_level_names id = "info"%string /\
  ts_isValid level_names (to_level id) = false /\ ts_toStr level_names (to_level id) = "Invalid"%string.
Proof. exists 1. repeat split. Qed.
Example C91_ex : exists s, server_start (355 # 113) 8 (fun ns => option_map to_ros (if String.eqb ns "general"
    then Some (PMap [("world_frame", PString "map"); ("logging_level", PString "error")]%string)
    else if String.eqb ns "map" then Some (PMap [("type"%string, PString "hashed_blocks")]) else None)) = Made s /\ server_logging s = (2, Some Error).
Proof. eexists. split; [vm_compute; reflexivity|vm_compute; reflexivity]. Qed.
Print Assumptions C91_server.
Print Assumptions C91_python.
Print Assumptions C91_conversion_refuted.
