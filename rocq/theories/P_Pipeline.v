(** * C50: pipelines *)
From Verif Require Import Base M_Pipeline.
From Coq Require Import String QArith Lqa Permutation.
Close Scope Q_scope.
Open Scope Z_scope.
Open Scope list_scope.

Section SPEC.
Context {I M : Type}.
(** ** Specification: what is registered after a history (given newest call first) *)
Fixpoint registered (h : list (cmd I M)) (name : string) : option I :=
  match h with
  | [] => None
  | CAddInt n (Some i) :: h' =>
      if String.eqb n name then match registered h' name with None => Some i | old => old end else registered h' name
  | CRemoveInt n :: h' => if String.eqb n name then None else registered h' name
  | CClearInts :: _ | CClear :: _ => None
  | _ :: h' => registered h' name
  end.
Fixpoint num_created (h : list (cmd I M)) : Z :=
  match h with [] => 0 | CAddOp (Some _) :: h' => num_created h' + 1 | _ :: h' => num_created h' end.
(** Registered operations in registration order, as (object, period). *)
Fixpoint operations (h : list (cmd I M)) : list (Z * Q) :=
  match h with
  | [] => []
  | CAddOp (Some p) :: h' => operations h' ++ [(num_created h', p)]
  | CClearOps :: _ | CClear :: _ => []
  | _ :: h' => operations h'
  end.
(** Time of the last run of an operation object according to the log; the epoch if it never ran. *)
Definition last_run (log : list (event I M)) (id : Z) : Q :=
  fold_left (fun t e => match e with EOp id' t' => if id' =? id then t' else t | EInt _ _ => t end) log 0%Q.
(** Operation k, reading the clock as [now], must run. *)
Definition due (force : bool) (log : list (event I M)) (o : Z * Q) (now : Q) : Prop :=
  force = true \/ (snd o < now - last_run log (fst o))%Q.
(** The events of running all operations: in order, exactly the due ones. *)
Inductive ops_events (force : bool) (log : list (event I M)) : (nat -> Q) -> list (Z * Q) -> list (event I M) -> Prop :=
| oe_nil ts : ops_events force log ts [] []
| oe_run ts o os es : due force log o (ts 0%nat) -> ops_events force log (fun k => ts (S k)) os es -> ops_events force log ts (o :: os) (EOp (fst o) (ts 0%nat) :: es)
| oe_skip ts o os es : ~ due force log o (ts 0%nat) -> ops_events force log (fun k => ts (S k)) os es -> ops_events force log ts (o :: os) es.
(** The events of running the named integrators: in order up to the first unknown name. *)
Inductive ints_events (h : list (cmd I M)) (m : M) : list string -> list (event I M) -> bool -> Prop :=
| ie_nil : ints_events h m [] [] true
| ie_run n ns i es b : registered h n = Some i -> ints_events h m ns es b -> ints_events h m (n :: ns) (EInt i m :: es) b
| ie_unknown n ns : registered h n = None -> ints_events h m (n :: ns) [] false.

(** ** Invariant *)
Definition inv (h : list (cmd I M)) (s : pipe I) (log : list (event I M)) : Prop :=
  (forall n, find_int (p_ints s) n = registered h n) /\
  map (fun o => (op_id o, op_period o)) (p_ops s) = operations h /\
  (forall o, In o (p_ops s) -> op_last o = last_run log (op_id o)) /\
  p_next s = num_created h /\
  NoDup (map op_id (p_ops s)) /\ (forall o, In o (p_ops s) -> op_id o < p_next s) /\
  (forall id t, In (EOp id t) log -> id < p_next s).
Lemma last_run_app l1 l2 id : last_run (l1 ++ l2) id = fold_left (fun t e => match e with EOp id' t' => if id' =? id then t' else t | EInt _ _ => t end) l2 (last_run l1 id).
Proof. unfold last_run. apply fold_left_app. Qed.
Lemma fold_ints (es : list (event I M)) t id : (forall id' t', In (EOp id' t') es -> id' <> id) ->
  fold_left (fun t e => match e with EOp id' t' => if id' =? id then t' else t | EInt _ _ => t end) es t = t.
Proof.
  revert t. induction es as [|e es IH]; intros t H; [reflexivity|]. cbn. rewrite IH by (intros; eapply H; right; eassumption).
  destruct e as [|id' t']; [reflexivity|]. destruct (Z.eqb_spec id' id); [exfalso; eapply H; [left; reflexivity|assumption]|reflexivity].
Qed.
Lemma find_filter (l : list (string * I)) n n' : find_int (filter (fun e => negb (String.eqb (fst e) n)) l) n' = if String.eqb n n' then None else find_int l n'.
Proof.
  induction l as [|[k i] l IH]; cbn; [destruct (String.eqb n n'); reflexivity|]. destruct (String.eqb_spec k n) as [->|Hk]; cbn.
  - rewrite IH. destruct (String.eqb n n'); reflexivity.
  - rewrite IH. destruct (String.eqb_spec k n') as [->|Hk']; [|reflexivity]. destruct (String.eqb_spec n n') as [->|]; [contradiction|reflexivity].
Qed.
Lemma runIntegrators_events (s : pipe I) h m names : (forall n, find_int (p_ints s) n = registered h n) ->
  ints_events h m names (fst (runIntegrators s names m)) (snd (runIntegrators s names m)).
Proof.
  intros H. induction names as [|n ns IH]; cbn; [constructor|]. unfold getIntegrator. destruct (find_int (p_ints s) n) as [i|] eqn:E.
  - destruct (runIntegrators s ns m) as [es b]. cbn in *. apply ie_run; [rewrite <- H; assumption|assumption].
  - apply ie_unknown. rewrite <- H. assumption.
Qed.
Lemma ints_no_ops h m names es b : ints_events h m names es b -> forall id t, ~ In (EOp id t) es.
Proof. induction 1; intros id t; cbn; [tauto| |tauto]. intros [C|C]; [discriminate|eapply IHints_events; eassumption]. Qed.
Lemma shouldRun_due (log : list (event I M)) o now force : op_last o = last_run log (op_id o) ->
  (force || shouldRun o now = true <-> due force log (op_id o, op_period o) now).
Proof.
  intros E. unfold due, shouldRun. rewrite orb_true_iff, E. cbn [fst snd]. rewrite negb_true_iff.
  split; (intros [H|H]; [left; assumption|right]).
  - apply Qnot_le_lt. intros C. apply Qle_bool_iff in C. congruence.
  - destruct (Qle_bool _ _) eqn:C; [|reflexivity]. apply Qle_bool_iff in C. lra.
Qed.
Lemma runOps_ok (log : list (event I M)) force : forall ops ts k, (forall o, In o ops -> op_last o = last_run log (op_id o)) ->
  NoDup (map op_id ops) ->
  let r := @runOps I M force ts k ops in
  ops_events force log (fun j => ts (k + j)%nat) (map (fun o => (op_id o, op_period o)) ops) (snd r) /\
  map (fun o => (op_id o, op_period o)) (fst r) = map (fun o => (op_id o, op_period o)) ops /\
  (forall o, In o (fst r) -> op_last o = last_run (log ++ snd r) (op_id o)) /\
  (forall e, In e (snd r) -> exists o t, In o ops /\ e = EOp (op_id o) t).
Proof.
  induction ops as [|o ops IH]; intros ts k H ND; cbv zeta.
  - cbn. split; [constructor|]. split; [reflexivity|]. split; intros ? [].
  - cbn [runOps]. inversion ND as [|? ? Hn ND']; subst.
    specialize (IH ts (S k) (fun o' h => H o' (or_intror h)) ND'). cbv zeta in IH.
    destruct (runOps force ts (S k) ops) as [os' es]. cbn [fst snd] in IH. destruct IH as (A & B & C & D).
    assert (A' : ops_events force log (fun j => (fun j => ts (k + j)%nat) (S j)) (map (fun o => (op_id o, op_period o)) ops) es).
    { clear - A. remember (fun j => ts (S k + j)%nat) as f. assert (E : forall j, f j = ts (k + S j)%nat) by (intros j; subst f; f_equal; lia). clear Heqf.
      remember (fun j => ts (k + S j)%nat) as g. assert (E' : forall j, f j = g j) by (intros j; subst g; apply E). clear E Heqg.
      revert g E'. induction A as [f|f o os es Hd _ IH|f o os es Hd _ IH]; intros g E.
      - constructor.
      - rewrite (E 0%nat) in *. constructor; [assumption|]. apply IH. intros j. apply E.
      - rewrite (E 0%nat) in *. apply oe_skip; [assumption|]. apply IH. intros j. apply E. }
    pose proof (shouldRun_due log o (ts k) force (H o (or_introl eq_refl))) as S.
    unfold op_run. destruct (force || shouldRun o (ts k)) eqn:R; cbn [fst snd app map].
    + split; [|split; [|split]].
      * pose proof (oe_run force log (fun j => ts (k + j)%nat) (op_id o, op_period o) (map (fun o => (op_id o, op_period o)) ops) es) as X. cbv beta in X. replace (k + 0)%nat with k in X by lia.
        apply X; [apply S; reflexivity|exact A'].
      * f_equal. exact B.
      * intros o' [<-|Ho'].
        -- cbn [op_last op_id]. rewrite last_run_app. cbn [fold_left]. rewrite Z.eqb_refl. symmetry. apply fold_ints.
           intros id' t' Hin. apply D in Hin as (o2 & t2 & Hin & E). injection E as -> ->. intros E2. apply Hn. rewrite <- E2. apply in_map. assumption.
        -- rewrite (C _ Ho'), !last_run_app. cbn [fold_left]. f_equal. destruct (Z.eqb_spec (op_id o) (op_id o')) as [E|]; [|reflexivity].
           exfalso. apply Hn. rewrite E. apply (in_map (fun o => (op_id o, op_period o))) in Ho'. rewrite B in Ho'. apply in_map_iff in Ho' as (o2 & E2 & Hin).
           injection E2 as E2 _. rewrite <- E2. apply in_map. assumption.
      * intros e [<-|He]; [exists o, (ts k); split; [left; reflexivity|reflexivity]|]. apply D in He as (o2 & t2 & Hin & E). exists o2, t2. split; [right; assumption|assumption].
    + split; [|split; [|split]].
      * apply (oe_skip _ _ _ (op_id o, op_period o)); [|exact A']. cbv beta. replace (k + 0)%nat with k by lia. intros X. apply S in X. discriminate.
      * f_equal. exact B.
      * intros o' [<-|Ho']; [|apply C; assumption]. rewrite (H o (or_introl eq_refl)), last_run_app. symmetry. apply fold_ints.
        intros id' t' Hin. apply D in Hin as (o2 & t2 & Hin & E). injection E as -> ->. intros E2. apply Hn. rewrite <- E2. apply in_map. assumption.
      * intros e He. apply D in He as (o2 & t2 & Hin & E). exists o2, t2. split; [right; assumption|assumption].
Qed.

Lemma inv_ops h s (log : list (event I M)) force ts h' es0 :
  inv h s log -> (forall id t, ~ In (EOp id t) es0) ->
  (forall n, registered h' n = registered h n) -> operations h' = operations h -> num_created h' = num_created h ->
  let r := @runOperations I M force ts s in
  ops_events force log ts (operations h) (snd r) /\ inv h' (fst r) (log ++ es0 ++ snd r).
Proof.
  intros (J1 & J2 & J3 & J4 & J5 & J6 & J7) He E1 E2 E3. cbv zeta. unfold runOperations.
  assert (L : forall id, last_run (log ++ es0) id = last_run log id).
  { intros id. rewrite last_run_app. apply fold_ints. intros id' t' Hin. exfalso. eapply He. eassumption. }
  pose proof (runOps_ok log force (p_ops s) ts 0 J3 J5) as K. cbv zeta in K.
  destruct (runOps force ts 0 (p_ops s)) as [os es]. cbn [fst snd] in *. destruct K as (A & B & C & D). rewrite J2 in A, B.
  assert (Bi : map op_id os = map op_id (p_ops s)).
  { rewrite <- J2 in B. apply (f_equal (map fst)) in B. rewrite !map_map in B. cbn in B. exact B. }
  split; [exact A|]. unfold inv. cbn [p_ints p_ops p_next]. rewrite E2, E3. split; [intros n; rewrite E1; apply J1|]. split; [assumption|].
  split; [intros o Ho; rewrite (C o Ho); rewrite app_assoc, !last_run_app with (l2 := es), L; reflexivity|].
  split; [assumption|]. split; [rewrite Bi; assumption|]. split.
  - intros o Ho. apply (in_map op_id) in Ho. rewrite Bi in Ho. apply in_map_iff in Ho as (o2 & <- & Ho). apply J6. assumption.
  - intros id t [H|[H|H]%in_app_or]%in_app_or; [eapply J7; eassumption|exfalso; eapply He; eassumption|].
    apply D in H as (o2 & t2 & Hin & E). injection E as -> ->. apply J6. assumption.
Qed.

Lemma inv_step h s log c : inv h s log -> inv (c :: h) (fst (step s c)) (log ++ snd (@step I M s c)).
Proof.
  intros J. pose proof J as (J1 & J2 & J3 & J4 & J5 & J6 & J7).
  destruct c as [n [i|]|n| |[p|]| | |names m|force ts|names m ts]; cbn [step fst snd].
  - unfold addIntegrator, getIntegrator. rewrite app_nil_r. destruct (find_int (p_ints s) n) eqn:E; cbn [fst].
    + unfold inv. cbn [registered operations num_created]. split; [|tauto]. intros k. rewrite J1. destruct (String.eqb_spec n k) as [->|]; [|reflexivity]. rewrite J1 in E. rewrite E. reflexivity.
    + unfold inv. cbn [registered operations num_created p_ints p_ops p_next]. split; [|tauto]. intros k. cbn [find_int]. rewrite <- J1. destruct (String.eqb_spec n k) as [->|]; [rewrite E|]; reflexivity.
  - rewrite app_nil_r. exact J.
  - rewrite app_nil_r. unfold inv. cbn [removeIntegrator fst p_ints p_ops p_next registered operations num_created]. split; [|tauto]. intros k. rewrite find_filter, J1. reflexivity.
  - rewrite app_nil_r. unfold inv. cbn [clearIntegrators p_ints p_ops p_next registered operations num_created]. split; [reflexivity|tauto].
  - rewrite app_nil_r. unfold inv. cbn [addOperation fst p_ints p_ops p_next registered operations num_created]. split; [assumption|].
    split; [rewrite map_app, J2, J4; reflexivity|]. split.
    { intros o [Ho|[<-|[]]]%in_app_or; [apply J3; assumption|]. cbn [op_last op_id]. symmetry. unfold last_run. apply fold_ints. intros id' t' Hin. apply J7 in Hin. lia. }
    split; [lia|]. split.
    { rewrite map_app. cbn [map op_id]. eapply Permutation_NoDup; [apply Permutation_cons_append|]. constructor; [|assumption]. intros Ha. apply in_map_iff in Ha as (o & E & Ho). apply J6 in Ho. lia. }
    split; [intros o [Ho|[<-|[]]]%in_app_or; [apply J6 in Ho; lia|cbn [op_id]; lia]|]. intros id t Hin. apply J7 in Hin. lia.
  - rewrite app_nil_r. exact J.
  - rewrite app_nil_r. unfold inv. cbn [clearOperations p_ints p_ops p_next registered operations num_created map]. split; [assumption|]. split; [reflexivity|]. split; [intros ? []|]. split; [assumption|]. split; [constructor|]. split; [intros ? []|assumption].
  - rewrite app_nil_r. unfold inv. cbn [clear_all clearOperations clearIntegrators p_ints p_ops p_next registered operations num_created map find_int]. split; [reflexivity|]. split; [reflexivity|]. split; [intros ? []|]. split; [assumption|]. split; [constructor|]. split; [intros ? []|assumption].
  - pose proof (runIntegrators_events s h m names J1) as K. pose proof (ints_no_ops _ _ _ _ _ K) as K'.
    unfold inv. cbn [registered operations num_created]. split; [assumption|]. split; [assumption|]. split.
    { intros o Ho. rewrite last_run_app, fold_ints; [apply J3; assumption|]. intros ? ? Hin. exfalso. eapply K'. eassumption. }
    split; [assumption|]. split; [assumption|]. split; [assumption|]. intros id t [H|H]%in_app_or; [eapply J7; eassumption|exfalso; eapply K'; eassumption].
  - pose proof (inv_ops h s log force ts (CRunOps force ts :: h) [] J (fun _ _ h => h) (fun n => eq_refl) eq_refl eq_refl) as K. apply K.
  - unfold runPipeline. pose proof (runIntegrators_events s h m names J1) as K. pose proof (ints_no_ops _ _ _ _ _ K) as K'.
    destruct (runIntegrators s names m) as [es b]. cbn [fst] in *.
    pose proof (inv_ops h s log false ts (CRunPipe names m ts :: h) es J K' (fun n => eq_refl) eq_refl eq_refl) as L. cbv zeta in L.
    destruct (runOperations false ts s) as [s' es']. cbn [fst snd] in *. apply L.
Qed.
Lemma inv_hist h : inv (rev h) (fst (run_hist h)) (snd (@run_hist I M h)).
Proof.
  induction h as [|c h IH] using rev_ind; [unfold inv; cbn; split; [reflexivity|]; split; [reflexivity|]; split; [intros ? []|]; split; [reflexivity|]; split; [constructor|]; split; [intros ? []|intros ? ? []]|].
  rewrite rev_app_distr. cbn [rev app]. unfold run_hist in *. rewrite fold_left_app. cbn [fold_left].
  set (sl := fold_left _ h _) in *. pose proof (inv_step _ _ _ c IH) as K. destruct (step (fst sl) c) as [s' es]. exact K.
Qed.
End SPEC.

(** After any history, integrators are found by name as registered: the first unremoved registration of a
    name wins, a second one is refused and changes nothing, as is a null integrator. *)
Theorem C50_lookup : forall (I M : Type) (h : list (cmd I M)) name,
  getIntegrator (fst (run_hist h)) name = registered (rev h) name /\
  hasIntegrator (fst (run_hist h)) name = (match registered (rev h) name with Some _ => true | None => false end) /\
  forall o, snd (addIntegrator (fst (run_hist h)) name o) = match registered (rev h) name with Some _ => None | None => o end.
Proof.
  intros I M h name. destruct (inv_hist h) as (J & _). unfold hasIntegrator, addIntegrator, getIntegrator. rewrite J. split; [reflexivity|]. split; [reflexivity|].
  intros [i|]; destruct (registered (rev h) name); reflexivity.
Qed.
(** runIntegrators calls the named integrators in order, stops at the first unknown name, and reports
    whether all were known. *)
Theorem C50_integrators : forall (I M : Type) (h : list (cmd I M)) names m,
  ints_events (rev h) m names (snd (step (fst (run_hist h)) (CRunInts names m))) (snd (runIntegrators (fst (run_hist h)) names m)).
Proof. intros I M h names m. destruct (inv_hist h) as (J & _). apply runIntegrators_events. exact J. Qed.
(** runOperations runs, in registration order, exactly the due operations. *)
Theorem C50_operations : forall (I M : Type) (h : list (cmd I M)) force ts,
  ops_events force (snd (run_hist h)) ts (operations (rev h)) (snd (step (fst (run_hist h)) (CRunOps force ts))).
Proof.
  intros I M h force ts. pose proof (inv_hist h) as J.
  apply (inv_ops _ _ _ force ts (CRunOps force ts :: rev h) [] J (fun _ _ h => h) (fun n => eq_refl) eq_refl eq_refl).
Qed.
(** runPipeline: the integrator calls, then the due operations, also if an integrator was unknown. *)
Theorem C50_pipeline : forall (I M : Type) (h : list (cmd I M)) names m ts,
  exists e1 e2, snd (step (fst (run_hist h)) (CRunPipe names m ts)) = e1 ++ e2 /\
    ints_events (rev h) m names e1 (snd (runPipeline (fst (run_hist h)) names m ts)) /\
    ops_events false (snd (run_hist h)) ts (operations (rev h)) e2.
Proof.
  intros I M h names m ts. pose proof (C50_integrators I M h names m) as A. pose proof (C50_operations I M h false ts) as B.
  cbn [step] in *. unfold runPipeline. destruct (runIntegrators _ names m) as [es b]. destruct (runOperations false ts _) as [s' es']. cbn [fst snd] in *.
  exists es, es'. auto.
Qed.
Definition ex_hist : list (cmd Z Z) :=
  [CAddInt "a" (Some 1); CAddInt "b" (Some 2); CAddInt "a" (Some 3); CAddOp (Some 10%Q); CAddOp (Some 1%Q);
   CRunPipe ["b"; "c"; "a"]%string 7 (fun _ => 10%Q); CRunOps false (fun _ => 11%Q); CRunOps false (fun _ => (23 # 2)%Q); CRunOps true (fun _ => 12%Q)].
Example C50_ex : snd (run_hist ex_hist) = [EInt 2 7; EOp 1 10%Q; EOp 0 11%Q; EOp 1 (23 # 2)%Q; EOp 0 12%Q; EOp 1 12%Q] /\ registered (rev ex_hist) "a" = Some 1.
Proof. split; vm_compute; reflexivity. Qed.

Print Assumptions C50_lookup.
Print Assumptions C50_integrators.
Print Assumptions C50_operations.
Print Assumptions C50_pipeline.
