(** C73: Processing recorded data gives each input the messages of its topic, all of them, once and in order, and serves
    the inputs' timers and the clock at least every 0.01 s of recorded time. *)
From Verif Require Import Base M_Undistort M_Input M_Rosbag P_Undistort P_Input.
From Coq Require Import Ascii String.
Close Scope string_scope.
Close Scope char_scope.
Open Scope list_scope.
Open Scope Z_scope.

(** Specification vocabulary *)
Section S.
Context {M : Type}.
(** The messages on a topic; the messages given to an input; the messages republished on a topic; the times at which the
    timers are served; the clock. *)
Definition on_topic (t : string) (l : list (bmsg M)) : list (bmsg M) := filter (fun m => String.eqb (bm_topic m) t) l.
Definition given (i : nat) (l : list (bevent M)) : list (bmsg M) :=
  flat_map (fun e => match e with BCall j m => if Nat.eqb i j then [m] else [] | _ => [] end) l.
Definition republished (t : string) (l : list (bevent M)) : list (bmsg M) :=
  flat_map (fun e => match e with BPub t' m => if String.eqb t' t then [m] else [] | _ => [] end) l.
Definition served (l : list (bevent M)) : list Z := flat_map (fun e => match e with BSpin t => [t] | _ => [] end) l.
Definition clocks (l : list (bevent M)) : list Z := flat_map (fun e => match e with BClock t => [t] | _ => [] end) l.
(** The topic to which a live input subscribes (in the root namespace, without remapping) *)
Definition resolved (name : string) : string :=
  match name with String "/"%char _ => name | _ => String "/"%char name end.
(** The number of messages handled before the program is interrupted *)
Definition handled (ok : nat -> bool) (n k : nat) : Prop :=
  (k <= n)%nat /\ (forall j, (j < k)%nat -> ok j = true) /\ (k = n \/ ok k = false).
End S.

(** *** Proofs *)
Section P.
Context {M : Type}.
Notation bmsg := (bmsg M). Notation bevent := (bevent M).
Lemma sfind_app {A} k (m m' : list (string * A)) : sfind k (m ++ m') = match sfind k m with Some a => Some a | None => sfind k m' end.
Proof. induction m as [|[k' a] m IH]; cbn [app sfind]; [reflexivity|]. destruct (String.eqb k' k); [reflexivity|exact IH]. Qed.
Lemma sfind_emplace {A} k k' (a : A) m :
  sfind k (try_emplace k' a m) = match sfind k m with Some x => Some x | None => if String.eqb k' k then Some a else None end.
Proof.
  unfold try_emplace. destruct (sfind k' m) eqn:E.
  - destruct (sfind k m) eqn:E2; [reflexivity|]. destruct (String.eqb_spec k' k); [congruence|reflexivity].
  - rewrite sfind_app. reflexivity.
Qed.
Fixpoint first_input (t : string) (i : nat) (inputs : list string) : option nat :=
  match inputs with [] => None | s :: r => if String.eqb s t then Some i else first_input t (S i) r end.
Lemma add_inputs_find inputs : forall p i t,
  sfind t (bp_callbacks (add_inputs p i inputs)) =
    (match sfind t (bp_callbacks p) with Some x => Some x | None => first_input t i inputs end) /\
  bp_republishers (add_inputs p i inputs) = bp_republishers p /\ bp_clock (add_inputs p i inputs) = bp_clock p.
Proof.
  induction inputs as [|s r IH]; intros p i t; cbn [add_inputs first_input].
  - split; [destruct (sfind t (bp_callbacks p)); reflexivity|auto].
  - destruct (IH (addCallback p s i) (S i) t) as (H1 & H2 & H3). rewrite H1, H2, H3. unfold addCallback.
    cbn [bp_callbacks bp_republishers bp_clock]. rewrite sfind_emplace. split; [|auto].
    destruct (sfind t (bp_callbacks p)); [reflexivity|]. destruct (String.eqb s t); reflexivity.
Qed.
Lemma first_input_ge t inputs : forall i j, first_input t i inputs = Some j -> (i <= j)%nat /\ nth_error inputs (j - i) = Some t.
Proof.
  induction inputs as [|s r IH]; intros i j H; cbn [first_input] in H; [discriminate|]. destruct (String.eqb_spec s t) as [->|N].
  - injection H as <-. split; [lia|]. rewrite Nat.sub_diag. reflexivity.
  - apply IH in H. destruct H as [H1 H2]. split; [lia|]. replace (j - i)%nat with (S (j - S i)) by lia. exact H2.
Qed.
Lemma first_input_first t inputs : forall i k, nth_error inputs k = Some t -> (forall j, (j < k)%nat -> nth_error inputs j <> Some t) ->
  first_input t i inputs = Some (i + k)%nat.
Proof.
  induction inputs as [|s r IH]; intros i k Hk Hf; [destruct k; discriminate|]. cbn [first_input]. destruct k as [|k].
  - cbn in Hk. injection Hk as ->. rewrite String.eqb_refl. f_equal. lia.
  - destruct (String.eqb_spec s t) as [->|N]; [exfalso; apply (Hf O); [lia|reflexivity]|].
    rewrite (IH (S i) k); [f_equal; lia|exact Hk|]. intros j Hj. apply (Hf (S j)). lia.
Qed.
(** Projections of the trace of the loop *)
Lemma given_handle p last (m : bmsg) i : given i (snd (handle p last m)) =
  match sfind (bm_topic m) (bp_callbacks p) with Some j => if Nat.eqb i j then [m] else [] | None => [] end.
Proof.
  unfold handle, given. destruct (_ || _); cbn [snd]; rewrite ?flat_map_app;
    destruct (sfind (bm_topic m) (bp_callbacks p)) as [j|], (sfind (bm_topic m) (bp_republishers p)), (bp_clock p);
    cbn; try destruct (Nat.eqb i j); reflexivity.
Qed.
Lemma republished_handle p last (m : bmsg) t : republished t (snd (handle p last m)) =
  match sfind (bm_topic m) (bp_republishers p) with Some t' => if String.eqb t' t then [m] else [] | None => [] end.
Proof.
  unfold handle, republished. destruct (_ || _); cbn [snd]; rewrite ?flat_map_app;
    destruct (sfind (bm_topic m) (bp_callbacks p)) as [j|], (sfind (bm_topic m) (bp_republishers p)) as [u|], (bp_clock p);
    cbn; try destruct (String.eqb u t); reflexivity.
Qed.
Lemma served_handle p last (m : bmsg) : served (snd (handle p last m)) =
  if (bm_time m <? last) || (last + kSideTasksDt <? bm_time m) then [bm_time m] else [].
Proof.
  unfold handle, served. destruct (_ || _); cbn [snd]; rewrite ?flat_map_app;
    destruct (sfind (bm_topic m) (bp_callbacks p)) as [j|], (sfind (bm_topic m) (bp_republishers p)) as [u|], (bp_clock p);
    reflexivity.
Qed.
Lemma clocks_handle p last (m : bmsg) : clocks (snd (handle p last m)) = if bp_clock p then served (snd (handle p last m)) else [].
Proof.
  unfold handle, served, clocks. destruct (_ || _); cbn [snd]; rewrite ?flat_map_app;
    destruct (sfind (bm_topic m) (bp_callbacks p)) as [j|], (sfind (bm_topic m) (bp_republishers p)) as [u|], (bp_clock p);
    reflexivity.
Qed.
Lemma loop_proj {X} (proj : list bevent -> list X) (f : bmsg -> list X) p :
  (forall a b, proj (a ++ b) = proj a ++ proj b) -> proj [] = [] ->
  (forall last m, proj (snd (handle p last m)) = f m) ->
  forall ok view k last n, handled (fun j => ok (k + j)%nat) (List.length view) n ->
  proj (fst (process_loop ok p k last view)) = flat_map f (firstn n view).
Proof.
  intros Hap H0 Hf ok. induction view as [|m view IH]; intros k last n (H1 & H2 & H3); cbn [process_loop].
  - rewrite firstn_nil. exact H0.
  - destruct n as [|n].
    + destruct H3 as [H3|H3]; [discriminate|]. rewrite Nat.add_0_r in H3. rewrite H3. exact H0.
    + pose proof (H2 O ltac:(lia)) as Hk. rewrite Nat.add_0_r in Hk. rewrite Hk.
      pose proof (Hf last m) as E. destruct (handle p last m) as [last' evs] eqn:Eh. cbn [snd] in E.
      specialize (IH (S k) last' n). destruct (process_loop ok p (S k) last' view) as [evs' r]. cbn [fst] in *.
      rewrite Hap, E. cbn [firstn flat_map]. f_equal. apply IH. split; [cbn [List.length] in H1; lia|]. split.
      * intros j Hj. replace (S k + j)%nat with (k + S j)%nat by lia. apply H2. lia.
      * cbn [List.length] in H3. replace (S k + n)%nat with (k + S n)%nat by lia. destruct H3 as [H3|H3]; [left; lia|right; exact H3].
Qed.
Lemma loop_result ok p (view : list bmsg) : forall k last, snd (process_loop ok p k last view) = true <->
  (forall j, (j < List.length view)%nat -> ok (k + j)%nat = true).
Proof.
  induction view as [|m view IH]; intros k last; cbn [process_loop List.length].
  - split; [intros _ j Hj; lia|reflexivity].
  - destruct (ok k) eqn:Ek.
    + destruct (handle p last m) as [last' evs]. specialize (IH (S k) last'). destruct (process_loop ok p (S k) last' view) as [evs' r].
      cbn [snd] in *. rewrite IH. split; intros H j Hj.
      * destruct j as [|j]; [rewrite Nat.add_0_r; exact Ek|]. replace (k + S j)%nat with (S k + j)%nat by lia. apply H. lia.
      * replace (S k + j)%nat with (k + S j)%nat by lia. apply H. lia.
    + cbn [snd]. split; [discriminate|]. intros H. specialize (H O ltac:(lia)). rewrite Nat.add_0_r in H. congruence.
Qed.
Lemma setup_callbacks inputs (view : list bmsg) t : sfind t (bp_callbacks (app_setup inputs view)) = first_input t 0 inputs.
Proof.
  pose proof (proj1 (add_inputs_find inputs bproc_new 0 t)) as H. cbn [bproc_new bp_callbacks sfind] in H.
  unfold app_setup. destruct (bagsContainTopic view "/clock"); exact H.
Qed.
Lemma setup_clock inputs (view : list bmsg) : bp_clock (app_setup inputs view) = negb (bagsContainTopic view "/clock").
Proof.
  pose proof (proj2 (proj2 (add_inputs_find inputs bproc_new 0 EmptyString))) as H.
  unfold app_setup. destruct (bagsContainTopic view "/clock"); [exact H|reflexivity].
Qed.
Lemma setup_republishers inputs (view : list bmsg) t : sfind t (bp_republishers (app_setup inputs view)) =
  if String.eqb "/tf" t then Some "/tf"%string else if String.eqb "/tf_static" t then Some "/tf_static"%string else
  if bagsContainTopic view "/clock" && String.eqb "/clock" t then Some "/clock"%string else None.
Proof.
  pose proof (proj1 (proj2 (add_inputs_find inputs bproc_new 0 EmptyString))) as H. unfold app_setup.
  destruct (bagsContainTopic view "/clock");
    cbn [addRepublisher enableSimulatedClock bp_republishers andb]; rewrite ?sfind_emplace, H; cbn [bproc_new bp_republishers sfind];
    repeat match goal with |- context [if ?b then _ else _] => destruct b end; reflexivity.
Qed.
Lemma flat_filter {X} (b : X -> bool) l : flat_map (fun x => if b x then [x] else []) l = filter b l.
Proof. induction l as [|x l IH]; cbn; [reflexivity|]. destruct (b x); cbn; rewrite IH; reflexivity. Qed.
Lemma filter_none {X} (b : X -> bool) l : (forall x, In x l -> b x = false) -> filter b l = [].
Proof. induction l as [|x l IH]; intros H; cbn; [reflexivity|]. rewrite H by (left; reflexivity). apply IH. intros y Hy. apply H. right. exact Hy. Qed.
End P.

(** *** The property *)
(** The first input configured for a topic is given exactly the messages recorded under that topic name, each once, in the
    order of the recording; if the program is interrupted, those handled before. *)
Theorem C73_messages_partial : forall (M : Type) (ok : nat -> bool) (inputs : list string) (view : list (bmsg M)) (k n : nat) (t : string),
  nth_error inputs k = Some t -> (forall j, (j < k)%nat -> nth_error inputs j <> Some t) ->
  handled ok (List.length view) n ->
  given k (fst (app_run ok inputs view)) = on_topic t (firstn n view).
Proof.
  intros M ok inputs view k n t Hk Hf Hn. unfold app_run, processAll.
  rewrite (loop_proj (given k) (fun m => if String.eqb (bm_topic m) t then [m] else []) (app_setup inputs view)) with (n := n).
  - apply flat_filter.
  - intros a b. apply flat_map_app.
  - reflexivity.
  - intros last m. rewrite given_handle, setup_callbacks. destruct (String.eqb_spec (bm_topic m) t) as [E|N].
    + rewrite E, (first_input_first t inputs 0 k Hk Hf). cbn [Nat.add]. rewrite Nat.eqb_refl. reflexivity.
    + destruct (first_input (bm_topic m) 0 inputs) as [j|] eqn:Ej; [|reflexivity]. apply first_input_ge in Ej.
      rewrite Nat.sub_0_r in Ej. destruct Ej as [_ Ej]. destruct (Nat.eqb_spec k j) as [<-|]; [congruence|reflexivity].
  - exact Hn.
Qed.
(** The run reports success iff it was not interrupted. *)
Theorem C73_success : forall (M : Type) (ok : nat -> bool) (inputs : list string) (view : list (bmsg M)),
  snd (app_run ok inputs view) = true <-> handled ok (List.length view) (List.length view).
Proof.
  intros M ok inputs view. unfold app_run, processAll. rewrite loop_result. unfold handled. cbn [Nat.add]. split.
  - intros H. split; [lia|]. split; [exact H|left; reflexivity].
  - intros (_ & H & _). exact H.
Qed.
(** Transforms are republished, all of them and in order; so is the recorded clock, if there is one. *)
Theorem C73_republished : forall (M : Type) (ok : nat -> bool) (inputs : list string) (view : list (bmsg M)) (n : nat) (t : string),
  In t ["/tf"; "/tf_static"; "/clock"]%string -> handled ok (List.length view) n ->
  republished t (fst (app_run ok inputs view)) = on_topic t (firstn n view).
Proof.
  intros M ok inputs view n t Ht Hn. unfold app_run, processAll.
  rewrite (loop_proj (republished t) (fun m =>
     match sfind (bm_topic m) (bp_republishers (app_setup inputs view)) with Some t' => if String.eqb t' t then [m] else [] | None => [] end)
     (app_setup inputs view)) with (n := n).
  - unfold on_topic. rewrite <- flat_filter. assert (Hin : forall m, In m (firstn n view) -> In m view).
    { intros m Hm. rewrite <- (firstn_skipn n view). apply in_or_app. left. exact Hm. }
    revert Hin. generalize (firstn n view). intros l Hin.
    induction l as [|m l IH]; [reflexivity|]. cbn [flat_map]. rewrite IH by (intros x Hx; apply Hin; right; exact Hx). f_equal.
    rewrite setup_republishers. specialize (Hin m (or_introl eq_refl)).
    assert (Hc : String.eqb (bm_topic m) "/clock" = true -> bagsContainTopic view "/clock" = true).
    { intros E. apply existsb_exists. exists m. auto. }
    cbn [In] in Ht. destruct Ht as [<-|[<-|[<-|[]]]];
      destruct (String.eqb_spec "/tf" (bm_topic m)) as [E1|N1]; [rewrite <- E1; reflexivity| |rewrite <- E1; reflexivity| |rewrite <- E1; reflexivity|];
      (destruct (String.eqb_spec "/tf_static" (bm_topic m)) as [E2|N2]; [rewrite <- E2; reflexivity|]);
      destruct (String.eqb_spec "/clock" (bm_topic m)) as [E3|N3].
    all: try (rewrite andb_false_r; match goal with |- context [String.eqb ?x ?s] => destruct (String.eqb_spec x s) as [E|]; [congruence|reflexivity] end).
    all: rewrite Hc by (rewrite <- E3; reflexivity); rewrite <- E3; reflexivity.
  - intros a b. apply flat_map_app.
  - reflexivity.
  - intros last m. apply republished_handle.
  - exact Hn.
Qed.
(** Without a recorded clock, the clock is published whenever the timers are served; with one, never in addition. *)
Theorem C73_clock : forall (M : Type) (ok : nat -> bool) (inputs : list string) (view : list (bmsg M)),
  clocks (fst (app_run ok inputs view)) = if bagsContainTopic view "/clock" then [] else served (fst (app_run ok inputs view)).
Proof.
  intros M ok inputs view. unfold app_run, processAll. set (p := app_setup inputs view).
  assert (Hc : bp_clock p = negb (bagsContainTopic view "/clock")) by apply setup_clock.
  cut (forall (v : list (bmsg M)) k last, clocks (fst (process_loop ok p k last v)) = if bagsContainTopic view "/clock" then [] else served (fst (process_loop ok p k last v))).
  { intros H. apply H. }
  induction v as [|m v IH]; intros k last; cbn [process_loop]; [destruct (bagsContainTopic view "/clock"); reflexivity|].
  destruct (ok k); [|destruct (bagsContainTopic view "/clock"); reflexivity].
  pose proof (clocks_handle p last m) as E. destruct (handle p last m) as [last' evs]. cbn [snd] in E.
  specialize (IH (S k) last'). destruct (process_loop ok p (S k) last' v) as [evs' r]. cbn [fst] in *.
  unfold clocks, served in *. rewrite !flat_map_app, E, IH, Hc. destruct (bagsContainTopic view "/clock"); reflexivity.
Qed.
(** If the recorded times do not decrease and start more than 0.01 s after 0, then after each message the timers have been
    served at most 0.01 s (of recorded time) before it; and they are not served more often than every 0.01 s. *)
Fixpoint spaced (d : Z) (l : list Z) : Prop :=
  match l with x :: (y :: _) as r => x + d < y /\ spaced d r | _ => True end.
Lemma spaced_snoc d l x : spaced d l -> (forall y, In y l -> y + d < x) -> spaced d (l ++ [x]).
Proof.
  induction l as [|a l IH]; intros H1 H2; [exact Logic.I|]. destruct l as [|b l]; cbn [app spaced] in *.
  - split; [apply H2; left; reflexivity|exact Logic.I].
  - destruct H1 as [H1 H3]. split; [exact H1|]. apply IH; [exact H3|]. intros y Hy. apply H2. right. exact Hy.
Qed.
Fixpoint nondecreasing (l : list Z) : Prop :=
  match l with x :: (y :: _) as r => x <= y /\ nondecreasing r | _ => True end.
Lemma nondecreasing_app l x y r : nondecreasing (l ++ x :: y :: r) -> x <= y.
Proof.
  induction l as [|a l IH]; cbn [app nondecreasing]; [tauto|]. destruct l as [|b l]; cbn [app nondecreasing] in *; tauto.
Qed.
Lemma nondecreasing_prefix l r : nondecreasing (l ++ r) -> nondecreasing l.
Proof.
  induction l as [|a l IH]; intros H; [exact Logic.I|]. destruct l as [|b l]; [exact Logic.I|]. cbn [app nondecreasing] in *. tauto.
Qed.
Lemma loop_snoc M ok p (view : list (bmsg M)) m : forall k last,
  (forall j, (j <= List.length view)%nat -> ok (k + j)%nat = true) ->
  exists last', fst (process_loop ok p k last (view ++ [m])) = fst (process_loop ok p k last view) ++ snd (handle p last' m) /\
  (served (fst (process_loop ok p k last view)) = [] /\ last' = last \/
   exists l, served (fst (process_loop ok p k last view)) = l ++ [last']).
Proof.
  induction view as [|m0 view IH]; intros k last Hok; cbn [app process_loop].
  - pose proof (Hok O ltac:(lia)) as E. rewrite Nat.add_0_r in E. rewrite E. exists last. destruct (handle p last m). cbn [fst snd app].
    rewrite app_nil_r. split; [reflexivity|left; split; reflexivity].
  - pose proof (Hok O ltac:(lia)) as E. rewrite Nat.add_0_r in E. rewrite E. pose proof (served_handle p last m0) as Hs.
    assert (Hl : fst (handle p last m0) = if (bm_time m0 <? last) || (last + kSideTasksDt <? bm_time m0) then bm_time m0 else last)
      by (unfold handle; destruct (_ || _); reflexivity).
    destruct (handle p last m0) as [last1 evs]. cbn [fst snd] in Hs, Hl.
    destruct (IH (S k) last1) as (last' & E1 & E2).
    { intros j Hj. replace (S k + j)%nat with (k + S j)%nat by lia. apply Hok. cbn [List.length]. lia. }
    destruct (process_loop ok p (S k) last1 (view ++ [m])) as [e1 r1], (process_loop ok p (S k) last1 view) as [e2 r2]. cbn [fst] in *.
    exists last'. rewrite E1, app_assoc. split; [reflexivity|]. unfold served in *. rewrite flat_map_app, Hs.
    destruct E2 as [[-> ->]|[l ->]].
    + rewrite app_nil_r. subst last1. destruct (_ || _); [right; exists []; reflexivity|left; split; reflexivity].
    + right. rewrite app_assoc. eauto.
Qed.
Theorem C73_timers : forall (M : Type) (ok : nat -> bool) (inputs : list string) (view rest : list (bmsg M)) (m : bmsg M),
  nondecreasing (map (@bm_time M) (view ++ m :: rest)) -> (forall j, ok j = true) ->
  Forall (fun m => 10000000 < bm_time m) (view ++ m :: rest) ->
  let t := served (fst (app_run ok inputs (view ++ [m]))) in
  (exists s, In s t /\ s <= bm_time m <= s + 10000000) /\ spaced 10000000 t.
Proof.
  intros M ok inputs view rest m Hs Hok Hpos. cbv zeta. unfold app_run, processAll.
  set (p := app_setup inputs (view ++ [m])). clearbody p.
  assert (G : forall view m, nondecreasing (map (@bm_time M) (view ++ [m])) -> Forall (fun m => 10000000 < bm_time m) (view ++ [m]) ->
    let t := served (fst (process_loop ok p 0 0 (view ++ [m]))) in
    (exists l s, t = l ++ [s] /\ s <= bm_time m <= s + 10000000) /\ spaced 10000000 t /\ Forall (fun x => x <= bm_time m) t).
  { clear view m rest Hs Hpos. intros view. induction view as [|m0 view IH] using rev_ind; intros m Hs Hpos; cbv zeta.
    - cbn [app process_loop]. rewrite Hok. cbn [app] in *. inversion Hpos as [|? ? Hm _]; subst. pose proof (served_handle p 0 m) as E.
      destruct (handle p 0 m) as [l e]. cbn [fst snd] in *. rewrite app_nil_r, E.
      assert (B : (bm_time m <? 0) || (0 + kSideTasksDt <? bm_time m) = true) by (unfold kSideTasksDt; lia). rewrite B.
      split; [exists [], (bm_time m); split; [reflexivity|lia]|]. split; [exact Logic.I|]. constructor; [lia|constructor].
    - rewrite <- app_assoc in Hs. cbn [app] in Hs.
      assert (Hle : bm_time m0 <= bm_time m).
      { rewrite map_app in Hs. cbn [map] in Hs. exact (nondecreasing_app _ _ _ [] Hs). }
      destruct (IH m0) as ((l & s & E1 & E2) & E3 & E4).
      { rewrite map_app in Hs |- *. cbn [map] in *. apply (nondecreasing_prefix _ [bm_time m]). rewrite <- app_assoc. exact Hs. }
      { apply Forall_app in Hpos. tauto. }
      destruct (loop_snoc M ok p (view ++ [m0]) m 0%nat 0) as (last' & F1 & F2); [intros; apply Hok|].
      rewrite F1. unfold served in *. rewrite flat_map_app. fold (@served M) in *. 
      pose proof (served_handle p last' m) as F3. unfold served in F3. rewrite F3. rewrite E1 in *.
      destruct F2 as [[F2 _]|[l' F2]]; [destruct l; discriminate|]. apply app_inj_tail in F2. destruct F2 as [-> ->].
      assert (Hlast : bm_time m <? last' = false) by lia. rewrite Hlast. cbn [orb].
      destruct (Z.ltb_spec (last' + kSideTasksDt) (bm_time m)) as [C|C]; unfold kSideTasksDt in C.
      + split; [exists (l' ++ [last']), (bm_time m); split; [reflexivity|lia]|]. split.
        * apply spaced_snoc; [exact E3|]. intros y Hy. 
          assert (y <= last'); [|lia]. clear - E3 Hy. revert y Hy. induction l' as [|a l' IH]; cbn [app] in *.
          -- intros y Hy. destruct Hy as [->|[]]. lia.
          -- intros y Hy. destruct l' as [|b l']; cbn [app spaced] in *.
             ++ destruct Hy as [->|[->|[]]]; lia.
             ++ destruct E3 as [E5 E6]. destruct Hy as [->|Hy]; [|apply IH; [exact E6|exact Hy]].
                specialize (IH E6 b (or_introl eq_refl)). lia.
        * apply Forall_app. split; [eapply Forall_impl; [|exact E4]; cbn; intros; lia|constructor; [lia|constructor]].
      + rewrite app_nil_r. split; [exists l', last'; split; [reflexivity|lia]|]. split; [exact E3|].
        eapply Forall_impl; [|exact E4]. cbn. intros. lia. }
  destruct (G view m) as ((l & s & E1 & E2) & E3 & _).
  - apply (nondecreasing_prefix _ (map (@bm_time M) rest)). rewrite <- map_app, <- app_assoc. exact Hs.
  - change (m :: rest) with ([m] ++ rest) in Hpos. rewrite app_assoc in Hpos. apply Forall_app in Hpos. tauto.
  - split; [|exact E3]. exists s. rewrite E1. split; [apply in_or_app; right; left; reflexivity|exact E2].
Qed.
Example C73_example :
  let view := [BM "/tf" 1000000000 1; BM "/lidar" 1004000000 2; BM "/imu" 1008000000 3; BM "/lidar" 1012000000 4;
               BM "/camera" 1013000000 5; BM "/lidar" 1030000000 6]%string in
  let inputs := ["/camera"; "/lidar"]%string in
  nth_error inputs 1 = Some "/lidar"%string /\ (forall j, (j < 1)%nat -> nth_error inputs j <> Some "/lidar"%string) /\
  handled (fun k => Nat.ltb k 6) 6 6 /\ handled (fun k => Nat.ltb k 4) 6 4 /\
  Forall (fun m => 10000000 < bm_time m) view /\ nondecreasing (map (@bm_time Z) view) /\
  given 1 (fst (app_run (fun _ => true) inputs view)) = [BM "/lidar" 1004000000 2; BM "/lidar" 1012000000 4; BM "/lidar" 1030000000 6]%string /\
  served (fst (app_run (fun _ => true) inputs view)) = [1000000000; 1012000000; 1030000000].
Proof.
  cbv zeta. split; [reflexivity|]. split; [intros [|j] Hj; [discriminate|lia]|].
  split; [split; [lia|]; split; [intros j Hj; apply Nat.ltb_lt; lia|left; reflexivity]|].
  split; [split; [lia|]; split; [intros j Hj; apply Nat.ltb_lt; lia|right; reflexivity]|].
  split; [repeat constructor|]. split; [cbn; lia|]. split; vm_compute; reflexivity.
Qed.

(** ** False variants *)
(** A second input on the same topic (for instance, one camera topic used with two integrator sets) is given nothing,
    although live it would be given every message. *)
Theorem C73_second_input_refuted : exists (inputs : list string) (view : list (bmsg Z)) (k : nat) (t : string),
  nth_error inputs k = Some t /\ resolved t = t /\ on_topic t view <> [] /\ given k (fst (app_run (fun _ => true) inputs view)) = [].
Proof.
  exists ["/lidar"; "/lidar"]%string, [BM "/lidar"%string 20000000 1], 1%nat, "/lidar"%string.
  split; [reflexivity|]. split; [reflexivity|]. split; [discriminate|reflexivity].
Qed.
(** An input whose topic is configured by a relative name, like the default "scan", is given nothing: recorded topic names
    are absolute, and the processor compares names without resolving them. *)
Theorem C73_relative_name_refuted : exists (inputs : list string) (view : list (bmsg Z)) (k : nat) (t : string),
  nth_error inputs k = Some t /\ (forall j, (j < k)%nat -> nth_error inputs j <> Some t) /\ t = "scan"%string /\
  on_topic (resolved t) view <> [] /\ given k (fst (app_run (fun _ => true) inputs view)) = [].
Proof.
  exists ["scan"]%string, [BM "/scan"%string 20000000 1], 0%nat, "scan"%string.
  split; [reflexivity|]. split; [intros j Hj; lia|]. split; [reflexivity|]. split; [discriminate|reflexivity].
Qed.
(** The queue of an input after the run: the callbacks push messages, and [timer] says in which of the calls of spinOnce
    the input's timer is due (and with which transforms its queue is then processed). *)
Fixpoint input_events (i : nat) (timer : Z -> option (nat -> tf_buffer Z)) (l : list (bevent (pc_msg Z))) : list (event Z Z) :=
  match l with
  | BCall j m :: r => (if Nat.eqb i j then [EvCloud (bm_data m)] else []) ++ input_events i timer r
  | BSpin t :: r => (match timer t with Some tfs => [EvProcess tfs] | None => [] end) ++ input_events i timer r
  | _ :: r => input_events i timer r
  | [] => []
  end.
(** The queues are not processed once more at the end: a message recorded less than 0.01 s after the last time the timers
    were served is still in the queue when the program finishes, and is not integrated, whatever the timers and the
    transforms do. *)
Theorem C73_last_message_refuted : exists (inputs : list string) (view : list (bmsg (pc_msg Z))) (m : pc_msg Z) (it : item Z),
  In (BM "/lidar"%string 1005000000 m) view /\ snd (app_run (fun _ => true) inputs view) = true /\
  callback (ex_cfg false) m = CbPush it /\
  forall timer log q, run_in (ex_cfg false) (input_events 0 timer (fst (app_run (fun _ => true) inputs view))) = Some (log, q) -> In it q.
Proof.
  exists ["/lidar"]%string, [BM "/lidar"%string 1000000000 m1; BM "/lidar"%string 1005000000 m2], m2. eexists.
  split; [right; left; reflexivity|]. split; [reflexivity|]. split; [vm_compute; reflexivity|].
  intros timer log q.
  replace (fst (app_run (fun _ => true) ["/lidar"%string] [BM "/lidar"%string 1000000000 m1; BM "/lidar"%string 1005000000 m2]))
    with [BCall 0 (BM "/lidar"%string 1000000000 m1); BClock 1000000000; BSpin 1000000000; BCall 0 (BM "/lidar"%string 1005000000 m2)] by reflexivity.
  cbn [input_events Nat.eqb]. rewrite !app_nil_r. cbn [bm_data app]. unfold run_in, irun.
  change (EvCloud m1 :: ?l ++ [EvCloud m2]) with ((EvCloud m1 :: l) ++ [EvCloud m2]).
  rewrite fold_left_app. cbn [fold_left].
  match goal with |- match ?s with _ => _ end = _ -> _ => destruct s as [[log0 q0]|]; [|discriminate] end.
  unfold istep. set (c := callback (ex_cfg false) m2). vm_compute in c. subst c. cbn [push fst snd]. intros H. injection H as _ <-.
  apply in_or_app. right. left. reflexivity.
Qed.

Print Assumptions C73_messages_partial.
Print Assumptions C73_success.
Print Assumptions C73_republished.
Print Assumptions C73_clock.
Print Assumptions C73_timers.
Print Assumptions C73_second_input_refuted.
Print Assumptions C73_relative_name_refuted.
Print Assumptions C73_last_message_refuted.
