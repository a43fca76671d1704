(** Property theorems C57: the input queues of the ROS node. *)
From Verif Require Import Base M_Undistort P_Undistort M_Input.
From Coq Require Import QArith Ascii String Sorting.Sorted Permutation.
Close Scope string_scope.
Close Scope char_scope.
Close Scope Q_scope.
Open Scope list_scope.
Open Scope Z_scope.

(** ** Specification *)
(** The time [t] is [ns] nanoseconds after the epoch *)
Definition at_ns (t : ros_time) (ns : Z) : Prop := fst t * 1000000000 + snd t = ns /\ 0 <= snd t < 1000000000 /\ 0 <= fst t < 2 ^ 32.
(** A frame name without its leading slash *)
Definition bare (s s' : string) : Prop := s = String "/"%char s' \/ (s = s' /\ forall r, s <> String "/"%char r).
(** The transform from frame [from] to frame [to] at the time [ns] is [X] / is not available *)
Definition transform_at {T} (b : tf_buffer T) (to from : string) (ns : Z) (X : option T) : Prop :=
  exists w f t, bare to w /\ bare from f /\ at_ns t ns /\ b w f t = X.
(** The configured frame if there is one, else the frame of the message *)
Definition uses_frame (configured msg f : string) : Prop := (configured = EmptyString -> f = msg) /\ (configured <> EmptyString -> f = configured).
(** The first field named x is followed by y and z *)
Definition has_xyz (l : list string) : Prop := exists a b, l = a ++ ["x"%string; "y"%string; "z"%string] ++ b /\ ~ In "x"%string a.
(** The message breaks off after x or after x, y *)
Definition breaks_off (l : list string) : Prop := exists a, ~ In "x"%string a /\ (l = a ++ ["x"%string] \/ l = a ++ ["x"%string; "y"%string]).

Section SPEC.
Context {P T : Type}.
Definition timed (cfg : iconfig) (m : pc_msg P) : Prop := ic_undistort cfg = true /\ ic_ouster cfg = true /\ In "t"%string (pm_fields m).
(** The stamped cloud of a message *)
Definition carries (cfg : iconfig) (m : pc_msg P) (it : item P) : Prop :=
  uses_frame (ic_frame cfg) (pm_frame m) (fst it) /\ sc_base (snd it) = fst (pm_stamp m) * 1000000000 + snd (pm_stamp m) + ic_offset cfg /\
  (timed cfg m -> sc_points (snd it) = map (fun p => SP (fst p) (snd p)) (pm_points m)) /\
  (~ timed cfg m -> sc_points (snd it) = map (fun p => SP (fst p) 0) (pm_points m)).
Definition carries_livox (cfg : iconfig) (m : lv_msg P) (it : item P) : Prop :=
  uses_frame (ic_frame cfg) (lm_frame m) (fst it) /\ sc_base (snd it) = lm_base m + ic_offset cfg /\
  sc_points (snd it) = map (fun p => SP (fst p) (snd p)) (lm_points m).
(** The clouds received in a history, oldest first *)
Inductive received (cfg : iconfig) : list (event P T) -> list (item P) -> Prop :=
| rc_none : received cfg [] []
| rc_cloud evs its m it : received cfg evs its -> pm_points m <> [] -> has_xyz (pm_fields m) -> carries cfg m it -> received cfg (evs ++ [EvCloud m]) (its ++ [it])
| rc_skip evs its m : received cfg evs its -> pm_points m = [] \/ ~ has_xyz (pm_fields m) -> received cfg (evs ++ [EvCloud m]) its
| rc_livox evs its m it : received cfg evs its -> lm_points m <> [] -> carries_livox cfg m it -> received cfg (evs ++ [EvLivox m]) (its ++ [it])
| rc_livox_skip evs its m : received cfg evs its -> lm_points m = [] -> received cfg (evs ++ [EvLivox m]) its
| rc_process evs its tfs : received cfg evs its -> received cfg (evs ++ [EvProcess tfs]) its.
(** Well-formed messages: the stored numbers of rows and columns are right, times are in the range of their types; times with the offset
    applied stay in the range of ros::Time. *)
Definition event_ok (cfg : iconfig) (e : event P T) : Prop :=
  match e with
  | EvCloud m => Z.of_nat (List.length (pm_points m)) = pm_height m * pm_width m /\ pm_height m * pm_width m < 2 ^ 32 /\ at_ns (pm_stamp m) (fst (pm_stamp m) * 1000000000 + snd (pm_stamp m)) /\
    0 <= fst (pm_stamp m) * 1000000000 + snd (pm_stamp m) + ic_offset cfg < 2 ^ 32 * 1000000000 /\ forall p, In p (pm_points m) -> 0 <= snd p < 2 ^ 32
  | EvLivox m => 0 <= lm_base m + ic_offset cfg < 2 ^ 32 * 1000000000 /\ forall p, In p (lm_points m) -> 0 <= snd p < 2 ^ 32
  | EvProcess _ => True
  end.
Definition cloud_of (o : outcome P T) : item P := match o with Integrated i _ _ => i | Dropped i => i end.
(** [p] is the first / last point of the cloud *)
Definition first_point (c : scloud P) (p : spoint P) : Prop := In p (sc_points c) /\ forall q, In q (sc_points c) -> sp_off p <= sp_off q.
Definition last_point (c : scloud P) (p : spoint P) : Prop := In p (sc_points c) /\ forall q, In q (sc_points c) -> sp_off q <= sp_off p.
(** The transforms from the sensor frame to the world frame over time *)
Definition transforms_over_time (b : tf_buffer T) (to from : string) (tfn : Z -> option T) : Prop :=
  forall ns, 0 <= ns < 2 ^ 32 * 1000000000 -> transform_at b to from ns (tfn ns).
End SPEC.

(** ** Facts *)
Lemma bare_sanitize s : bare s (sanitizeFrameId s).
Proof.
  destruct s as [|c r]; [right; split; [reflexivity|discriminate]|]. cbn [sanitizeFrameId]. destruct (Ascii.eqb_spec c "/"%char) as [->|N]; [left; reflexivity|].
  right. split; [reflexivity|]. intros r' E. injection E as E _. apply N, E.
Qed.
Lemma bare_unique s a b : bare s a -> bare s b -> a = b.
Proof. intros [->|[-> H]] [E|[E H2]]; [injection E as E; exact E|exfalso; apply (H2 a); reflexivity|exfalso; apply (H b); exact E|exact E]. Qed.
Lemma at_ns_unique t t' ns : at_ns t ns -> at_ns t' ns -> t = t'.
Proof. destruct t as [a b], t' as [a' b']. unfold at_ns. cbn. intros (H1 & H2 & _) (H3 & H4 & _). f_equal; lia. Qed.
Lemma at_ns_conv ns : 0 <= ns < 2 ^ 32 * 1000000000 -> at_ns (nanoSecondsToRosTime ns) ns.
Proof.
  intros H. unfold at_ns, nanoSecondsToRosTime. cbn [fst snd]. pose proof (Z.mod_pos_bound ns 1000000000 ltac:(lia)). pose proof (Z.div_mod ns 1000000000 ltac:(lia)).
  assert (0 <= ns / 1000000000 < 2 ^ 32) by (split; [apply Z.div_pos; lia|apply Z.div_lt_upper_bound; lia]). rewrite !Z.mod_small by lia. lia.
Qed.
Lemma lookup_at {T} (b : tf_buffer T) to from ns : 0 <= ns < 2 ^ 32 * 1000000000 -> transform_at b to from ns (lookupTransform b to from (nanoSecondsToRosTime ns)).
Proof. intros H. exists (sanitizeFrameId to), (sanitizeFrameId from), (nanoSecondsToRosTime ns). split; [apply bare_sanitize|]. split; [apply bare_sanitize|]. split; [apply at_ns_conv, H|reflexivity]. Qed.
Lemma transform_at_unique {T} (b : tf_buffer T) to from ns X Y : transform_at b to from ns X -> transform_at b to from ns Y -> X = Y.
Proof.
  intros (w & f & t & A & B & C & <-) (w' & f' & t' & A' & B' & C' & <-). rewrite (bare_unique _ _ _ A A'), (bare_unique _ _ _ B B'), (at_ns_unique _ _ _ C C'). reflexivity.
Qed.
Lemma add_offset_ok t d : 0 <= fst t * 1000000000 + snd t + d < 2 ^ 32 * 1000000000 ->
  exists t', add_offset t d = Some t' /\ rosTimeToNanoSeconds t' = fst t * 1000000000 + snd t + d /\ at_ns t' (fst t * 1000000000 + snd t + d).
Proof.
  intros H. unfold add_offset. set (ns := fst t * 1000000000 + snd t + d) in *. cbv zeta. replace ((0 <=? ns) && (ns <? 2 ^ 32 * 1000000000)) with true by (symmetry; apply andb_true_intro; split; [apply Z.leb_le|apply Z.ltb_lt]; lia).
  pose proof (Z.mod_pos_bound ns 1000000000 ltac:(lia)). pose proof (Z.div_mod ns 1000000000 ltac:(lia)).
  assert (0 <= ns / 1000000000 < 2 ^ 32) by (split; [apply Z.div_pos; lia|apply Z.div_lt_upper_bound; lia]).
  eexists. split; [reflexivity|]. unfold rosTimeToNanoSeconds, at_ns. cbn [fst snd]. split; [|lia]. rewrite u64_id; lia.
Qed.
Lemma frame_of_ok a b : uses_frame a b (frame_of a b).
Proof. unfold frame_of, uses_frame. destruct (String.eqb_spec a EmptyString) as [->|N]; split; intros; congruence. Qed.
Lemma after_x_spec l : match after_x l with Some r => exists a, l = a ++ "x"%string :: r /\ ~ In "x"%string a | None => ~ In "x"%string l end.
Proof.
  induction l as [|s l IH]; [intros []|]. cbn [after_x]. destruct (String.eqb_spec s "x"%string) as [->|N]; [exists []; split; [reflexivity|intros []]|].
  destruct (after_x l) as [r|]; [|intros [E|I]; [apply N, E|apply IH, I]]. destruct IH as (a & -> & Ha). exists (s :: a). split; [reflexivity|]. intros [E|I]; [apply N, E|apply Ha, I].
Qed.
Lemma first_x (a a' : list string) r r' : a ++ "x"%string :: r = a' ++ "x"%string :: r' -> ~ In "x"%string a -> ~ In "x"%string a' -> a = a' /\ r = r'.
Proof.
  revert a'. induction a as [|s a IH]; intros [|s' a'] E Ha Ha'; cbn in E.
  - injection E as E. split; [reflexivity|exact E].
  - injection E as E _. exfalso. apply Ha'. left. symmetry. exact E.
  - injection E as E _. exfalso. apply Ha. left. exact E.
  - injection E as -> E. destruct (IH a' E) as [-> ->]; [intros I; apply Ha; right; exact I|intros I; apply Ha'; right; exact I|]. split; reflexivity.
Qed.
Lemma check_fields_spec l : match check_fields l with Some true => has_xyz l | Some false => ~ has_xyz l | None => breaks_off l end.
Proof.
  unfold check_fields. pose proof (after_x_spec l) as H. destruct (after_x l) as [r|].
  2: { intros (a & b & -> & _). apply H. apply in_or_app. right. left. reflexivity. }
  destruct H as (a & -> & Ha). assert (K : forall b', has_xyz (a ++ "x"%string :: b') -> exists b, b' = "y"%string :: "z"%string :: b).
  { intros b' (a' & b & E & Ha'). change (["x"%string; "y"%string; "z"%string] ++ b) with ("x"%string :: ["y"%string; "z"%string] ++ b) in E. destruct (first_x _ _ _ _ E Ha Ha') as [_ ->]. exists b. reflexivity. }
  destruct r as [|y r]; [exists a; split; [exact Ha|left; reflexivity]|]. destruct (String.eqb_spec y "y"%string) as [->|N]; cbn [negb].
  - destruct r as [|z r]; [exists a; split; [exact Ha|right; reflexivity]|]. destruct (String.eqb_spec z "z"%string) as [->|N].
    + exists a, r. split; [reflexivity|exact Ha].
    + intros HX. destruct (K _ HX) as (b & E). injection E as E _. apply N, E.
  - intros HX. destruct (K _ HX) as (b & E). injection E as E _. apply N, E.
Qed.
Lemma load_spec {P} base (l : list (P * Z)) : let c := load base l in sc_base c = base /\ sc_points c = map (fun p => SP (fst p) (snd p)) l /\ sc_sorted c = false.
Proof.
  unfold load. assert (G : forall c, sc_sorted c = false -> let c' := fold_left (fun c p => sc_emplace c (SP (fst p) (snd p))) l c in
    sc_base c' = sc_base c /\ sc_points c' = sc_points c ++ map (fun p => SP (fst p) (snd p)) l /\ sc_sorted c' = false).
  { induction l as [|p l IH]; intros c Hc; cbn zeta; cbn [fold_left map]; [rewrite app_nil_r; auto|]. destruct (IH (sc_emplace c (SP (fst p) (snd p))) eq_refl) as (A & B & C).
    split; [exact A|]. split; [|exact C]. cbn zeta in B. rewrite B. cbn [sc_emplace sc_points]. rewrite <- app_assoc. reflexivity. }
  exact (G (SC base [] false) eq_refl).
Qed.

(** ** The queue of point clouds *)
Section PC.
Context {P T : Type} (act : T -> P -> P) (inv : T -> T) (interp : T -> T -> Q -> T) (ident : T).
Context (srt : list (spoint P) -> list (spoint P)).
Let run := irun act inv interp ident srt.
Let process := processQueue act inv interp ident srt.
Let undist := undistortPointcloud act inv interp ident srt.
Definition item_ok (it : item P) : Prop := cloud_ok (snd it) /\ sc_base (snd it) < 2 ^ 32 * 1000000000.
Lemma ends_ex c : sorts srt -> cloud_ok c -> exists p0 p1, getStartTime srt c = Some (point_time c p0) /\ getEndTime srt c = Some (point_time c p1) /\ first_point c p0 /\ last_point c p1.
Proof.
  intros Hs Hc. destruct (times_ex (fun (_ : unit) (p : P) => p) (fun x => x) (fun x _ _ => x) tt (fun _ _ => eq_refl) srt Hs c Hc) as (p0 & p1 & _ & _ & A & B & I0 & I1 & H).
  exists p0, p1. split; [exact A|]. split; [exact B|]. split; (split; [assumption|]); intros q Iq; apply (H q Iq).
Qed.
(** Why an element was taken out of the queue, in round [k] of a call, [b] being the newest element *)
Definition raw_ok (cfg : iconfig) (tfs : nat -> tf_buffer T) (b : item P) (o : outcome P T) : Prop :=
  exists k, let look it := lookupTransform (tfs k) (ic_world cfg) (fst it) in
  match o with
  | Integrated it pose pts =>
    if ic_undistort cfg then undist (look it) (ic_n cfg) (snd it) = USuccess pose pts
    else look it (nanoSecondsToRosTime (sc_base (snd it))) = Some pose /\ pts = map (@sp_pos P) (sc_points (sc_sort srt (snd it)))
  | Dropped it =>
    (exists e s, getEndTime srt (snd b) = Some e /\ getStartTime srt (snd it) = Some s /\ ic_wait cfg < u64 (e - s)) \/
    (ic_undistort cfg = true /\ (undist (look it) (ic_n cfg) (snd it) = UStart \/ undist (look it) (ic_n cfg) (snd it) = UIntermediate))
  end.
Definition raw_wait (cfg : iconfig) (tfs : nat -> tf_buffer T) (b : item P) (it : item P) : Prop :=
  (exists e s, getEndTime srt (snd b) = Some e /\ getStartTime srt (snd it) = Some s /\ u64 (e - s) <= ic_wait cfg) /\
  exists k, let look := lookupTransform (tfs k) (ic_world cfg) (fst it) in
  if ic_undistort cfg then undist look (ic_n cfg) (snd it) = UEnd else look (nanoSecondsToRosTime (sc_base (snd it))) = None.
Lemma process_spec cfg tfs b : forall q k log q' pre, q = pre ++ [b] -> process cfg tfs k q = Some (log, q') ->
  q = map cloud_of log ++ q' /\ Forall (raw_ok cfg tfs b) log /\ (q' = [] \/ exists it r, q' = it :: r /\ raw_wait cfg tfs b it).
Proof.
  induction q as [|it rest IH]; intros k log q' pre Eq Ep; [destruct pre; discriminate|]. unfold process in Ep. cbn [processQueue] in Ep. fold process in Ep.
  assert (Eb : last (it :: rest) it = b) by (rewrite Eq; apply last_last). rewrite Eb in Ep.
  destruct (getEndTime srt (snd b)) as [e|] eqn:Ee; [|discriminate]. destruct (getStartTime srt (snd it)) as [s|] eqn:Es; [|discriminate].
  assert (NX : forall o, cloud_of o = it -> raw_ok cfg tfs b o -> option_map (fun r => (o :: fst r, snd r)) (process cfg tfs (S k) rest) = Some (log, q') ->
    it :: rest = map cloud_of log ++ q' /\ Forall (raw_ok cfg tfs b) log /\ (q' = [] \/ exists it r, q' = it :: r /\ raw_wait cfg tfs b it)).
  { intros o Ho Ro En. destruct (process cfg tfs (S k) rest) as [[l2 q2]|] eqn:Er; [|discriminate]. cbn in En. injection En as <- <-. cbn [map app]. rewrite Ho.
    destruct rest as [|x rest].
    - unfold process in Er. cbn in Er. injection Er as <- <-. split; [reflexivity|]. split; [constructor; [exact Ro|constructor]|left; reflexivity].
    - destruct pre as [|a pre]; [discriminate|]. cbn in Eq. injection Eq as -> Eq. destruct (IH (S k) l2 q2 pre Eq Er) as (A & B & C). split; [f_equal; exact A|]. split; [constructor; assumption|exact C]. }
  destruct (Z.ltb_spec (ic_wait cfg) (u64 (e - s))) as [W|W].
  - apply (NX (Dropped it) eq_refl); [|exact Ep]. exists k. left. exists e, s. auto.
  - destruct (ic_undistort cfg) eqn:EU.
    + fold undist in Ep. destruct (undist _ (ic_n cfg) (snd it)) as [| | |pose pts|] eqn:Ed.
      * apply (NX (Dropped it) eq_refl); [|exact Ep]. exists k. right. auto.
      * injection Ep as <- <-. split; [reflexivity|]. split; [constructor|]. right. exists it, rest. split; [reflexivity|]. split; [exists e, s; auto|]. exists k. cbv zeta. rewrite EU. exact Ed.
      * apply (NX (Dropped it) eq_refl); [|exact Ep]. exists k. right. auto.
      * apply (NX (Integrated it pose pts) eq_refl); [|exact Ep]. exists k. cbv zeta. rewrite EU. exact Ed.
      * discriminate.
    + destruct (lookupTransform _ _ _ _) as [pose|] eqn:El.
      * apply (NX (Integrated it pose _) eq_refl) in Ep; [exact Ep|]. exists k. cbv zeta. rewrite EU. split; [exact El|reflexivity].
      * injection Ep as <- <-. split; [reflexivity|]. split; [constructor|]. right. exists it, rest. split; [reflexivity|]. split; [exists e, s; auto|]. exists k. cbv zeta. rewrite EU. exact El.
Qed.

(** The state after a history *)
Definition history_ok (cfg : iconfig) (evs : list (event P T)) (log : list (outcome P T)) (q : list (item P)) : Prop :=
  exists its, received cfg evs its /\ its = map cloud_of log ++ q /\ Forall item_ok its /\
    Forall (fun o => exists evs1 tfs evs2 its1 b, evs = evs1 ++ EvProcess tfs :: evs2 /\ received cfg evs1 (its1 ++ [b]) /\ In (cloud_of o) (its1 ++ [b]) /\ Forall item_ok (its1 ++ [b]) /\ raw_ok cfg tfs b o) log.
Lemma irun_app cfg evs e : run cfg (evs ++ [e]) = match run cfg evs with Some s => istep act inv interp ident srt cfg s e | None => None end.
Proof. unfold run, irun. rewrite fold_left_app. reflexivity. Qed.
Lemma later_ok cfg evs e log :
  Forall (fun o => exists evs1 tfs evs2 its1 b, evs = evs1 ++ EvProcess tfs :: evs2 /\ received cfg evs1 (its1 ++ [b]) /\ In (cloud_of o) (its1 ++ [b]) /\ Forall item_ok (its1 ++ [b]) /\ raw_ok cfg tfs b o) log ->
  Forall (fun o => exists evs1 tfs evs2 its1 b, evs ++ [e] = evs1 ++ EvProcess tfs :: evs2 /\ received cfg evs1 (its1 ++ [b]) /\ In (cloud_of o) (its1 ++ [b]) /\ Forall item_ok (its1 ++ [b]) /\ raw_ok cfg tfs b o) log.
Proof. apply Forall_impl. intros o (e1 & t & e2 & i1 & b & -> & R). exists e1, t, (e2 ++ [e]), i1, b. split; [rewrite <- app_assoc; reflexivity|exact R]. Qed.
Lemma load_ok base (l : list (P * Z)) : 0 <= base < 2 ^ 32 * 1000000000 -> l <> [] -> (forall p, In p l -> 0 <= snd p < 2 ^ 32) -> forall f, item_ok (f, load base l).
Proof.
  intros Hb Hl Hr f. destruct (load_spec base l) as (A & B & C). unfold item_ok, cloud_ok. cbn [snd]. rewrite A, B, C. split; [|lia]. split; [destruct l; [contradiction|discriminate]|]. split; [lia|].
  split; [|split; [lia|discriminate]]. intros p I. apply in_map_iff in I as (x & <- & I). cbn. apply Hr, I.
Qed.
Lemma callback_spec cfg m : event_ok cfg (@EvCloud P T m) -> 
  match callback cfg m with
  | CbSkip => pm_points m = [] \/ ~ has_xyz (pm_fields m)
  | CbPush it => pm_points m <> [] /\ has_xyz (pm_fields m) /\ carries cfg m it /\ item_ok it
  | CbError => breaks_off (pm_fields m)
  end.
Proof.
  intros (N1 & N2 & Hs & Ho & Hp). unfold callback.
  destruct (Z.eqb_spec ((pm_height m * pm_width m) mod 2 ^ 32) 0) as [E|E]; rewrite Z.mod_small in E by lia; [left; destruct (pm_points m); [reflexivity|cbn in N1; lia]|].
  assert (Ne : pm_points m <> []) by (intros X; rewrite X in N1; cbn in N1; lia). pose proof (check_fields_spec (pm_fields m)) as C. destruct (check_fields (pm_fields m)) as [[|]|]; [|right; exact C|exact C].
  destruct (add_offset_ok _ _ Ho) as (t & -> & Et & _). rewrite Et. set (timedb := ic_undistort cfg && ic_ouster cfg && existsb (String.eqb "t"%string) (pm_fields m)).
  assert (TB : timedb = true <-> timed cfg m).
  { unfold timedb, timed. rewrite !andb_true_iff, existsb_exists. split; [intros [[A B] (x & I & X)]|intros (A & B & I)].
    - apply String.eqb_eq in X. subst x. auto.
    - split; [split; assumption|]. exists "t"%string. split; [exact I|apply String.eqb_refl]. }
  split; [exact Ne|]. split; [exact C|]. cbv zeta. split.
  - destruct (load_spec (fst (pm_stamp m) * 1000000000 + snd (pm_stamp m) + ic_offset cfg) (map (fun p => (fst p, if timedb then snd p else 0)) (pm_points m))) as (A & B & _).
    split; [apply frame_of_ok|]. cbn [snd]. split; [exact A|]. rewrite B, map_map. cbn [fst snd]. split; intros HT.
    + apply TB in HT. rewrite HT. reflexivity.
    + destruct timedb; [exfalso; apply HT, TB; reflexivity|reflexivity].
  - apply load_ok; [lia|destruct (pm_points m); [contradiction|discriminate]|]. intros p I. apply in_map_iff in I as (x & <- & I). cbn. destruct timedb; [apply Hp, I|lia].
Qed.
Lemma callback_livox_spec cfg m : event_ok cfg (@EvLivox P T m) ->
  match callback_livox cfg m with
  | CbSkip => lm_points m = []
  | CbPush it => lm_points m <> [] /\ carries_livox cfg m it /\ item_ok it
  | CbError => ~ - 2 ^ 31 <= ic_offset cfg < 2 ^ 31
  end.
Proof.
  intros (Hb & Hp). unfold callback_livox. destruct (lm_points m) as [|p l] eqn:E; [reflexivity|].
  destruct (Z.leb_spec (- 2 ^ 31) (ic_offset cfg)); [|cbn [andb]; lia]. destruct (Z.ltb_spec (ic_offset cfg) (2 ^ 31)); [|cbn [andb]; lia]. cbn [andb].
  rewrite u64_id by lia. split; [discriminate|]. split.
  - destruct (load_spec (lm_base m + ic_offset cfg) (p :: l)) as (A & B & _). split; [apply frame_of_ok|]. split; [exact A|]. rewrite E. exact B.
  - apply load_ok; [lia|discriminate|exact Hp].
Qed.
Lemma history_inv cfg : forall evs log q, Forall (event_ok cfg) evs -> run cfg evs = Some (log, q) -> history_ok cfg evs log q.
Proof.
  intros evs. induction evs as [|e evs IH] using rev_ind; intros log q Ho Er.
  - injection Er as <- <-. exists []. repeat split; constructor.
  - rewrite irun_app in Er. destruct (run cfg evs) as [[l1 q1]|] eqn:E1; [|discriminate]. apply Forall_app in Ho as [Ho He]. inversion He as [|? ? He' _]; subst.
    destruct (IH l1 q1 Ho eq_refl) as (its & R & Ei & Fi & J). destruct e as [m|m|tfs]; cbn [istep] in Er.
    + pose proof (callback_spec cfg m He') as C. destruct (callback cfg m) as [|it|]; cbn [push fst snd] in Er; [| |discriminate]; injection Er as <- <-.
      * exists its. split; [apply rc_skip; assumption|]. split; [exact Ei|]. split; [exact Fi|]. apply later_ok, J.
      * destruct C as (C1 & C2 & C3 & C4). exists (its ++ [it]). split; [apply rc_cloud; assumption|]. split; [rewrite Ei, app_assoc; reflexivity|].
        split; [apply Forall_app; split; [exact Fi|constructor; [exact C4|constructor]]|apply later_ok, J].
    + pose proof (callback_livox_spec cfg m He') as C. destruct (callback_livox cfg m) as [|it|]; cbn [push fst snd] in Er; [| |discriminate]; injection Er as <- <-.
      * exists its. split; [apply rc_livox_skip; assumption|]. split; [exact Ei|]. split; [exact Fi|]. apply later_ok, J.
      * destruct C as (C1 & C2 & C3). exists (its ++ [it]). split; [apply rc_livox; assumption|]. split; [rewrite Ei, app_assoc; reflexivity|].
        split; [apply Forall_app; split; [exact Fi|constructor; [exact C3|constructor]]|apply later_ok, J].
    + cbn [fst snd] in Er. fold process in Er. destruct (process cfg tfs 0 q1) as [[l2 q2]|] eqn:Ep; [|discriminate]. cbn in Er. injection Er as <- <-. exists its. split; [apply rc_process, R|].
      destruct q1 as [|x q1'].
      { unfold process in Ep. cbn in Ep. injection Ep as <- <-. rewrite !app_nil_r in *. split; [exact Ei|]. split; [exact Fi|apply later_ok, J]. }
      destruct (exists_last (l := x :: q1') ltac:(discriminate)) as (pre & b & Eb). destruct (process_spec cfg tfs b _ 0 l2 q2 pre Eb Ep) as (A & B & _).
      split; [rewrite Ei, A, map_app, app_assoc; reflexivity|]. split; [exact Fi|]. apply Forall_app. split; [apply later_ok, J|].
      rewrite Forall_forall in *. intros o Io. exists evs, tfs, [], (map cloud_of l1 ++ pre), b. rewrite <- app_assoc, <- Eb, <- Ei. split; [reflexivity|]. split; [exact R|].
      split; [rewrite Ei, A; apply in_or_app; right; apply in_or_app; left; apply in_map, Io|]. split; [apply Forall_forall, Fi|apply B, Io].
Qed.
End PC.

Lemma undist_ext {P T} (act : T -> P -> P) inv interp ident srt f g n c : (forall ns, f (nanoSecondsToRosTime ns) = g (nanoSecondsToRosTime ns)) ->
  undistortPointcloud act inv interp ident srt f n c = undistortPointcloud act inv interp ident srt g n c.
Proof.
  intros H. unfold undistortPointcloud. destruct (getStartTime srt c) as [s|]; [|reflexivity]. destruct (getEndTime srt c) as [e|]; [|reflexivity]. cbv zeta.
  destruct (n - 1 =? 0); [reflexivity|]. rewrite !H.
  assert (B : forall step k from, buffer_poses f s step k from = buffer_poses g s step k from).
  { intros step. induction k as [|k IH]; intros from; [reflexivity|]. cbn [buffer_poses]. rewrite H, IH. reflexivity. }
  rewrite B. reflexivity.
Qed.
Lemma look_by_ns {T} (b : tf_buffer T) to from tfn : transforms_over_time b to from tfn -> forall ns, lookupTransform b to from (nanoSecondsToRosTime ns) = by_ns tfn (nanoSecondsToRosTime ns).
Proof.
  intros H ns. set (t := nanoSecondsToRosTime ns). set (x := fst t * 1000000000 + snd t).
  assert (R : 0 <= snd t < 1000000000 /\ 0 <= fst t < 2 ^ 32).
  { unfold t, nanoSecondsToRosTime. cbn [fst snd]. pose proof (Z.mod_pos_bound ns 1000000000 ltac:(lia)). rewrite (Z.mod_small (ns mod _)) by lia. split; [lia|]. apply Z.mod_pos_bound. lia. }
  assert (Hx : 0 <= x < 2 ^ 32 * 1000000000) by (unfold x; lia).
  unfold by_ns. fold x. apply (transform_at_unique b to from x); [|apply H, Hx].
  exists (sanitizeFrameId to), (sanitizeFrameId from), t. split; [apply bare_sanitize|]. split; [apply bare_sanitize|]. split; [unfold at_ns; fold x; lia|reflexivity].
Qed.

(** A cloud whose duration and times suit the number [n] of intervals (outside see C56) *)
Definition fine_cloud {P} (n : Z) (c : scloud P) (p0 p1 : spoint P) : Prop :=
  let t0 := point_time c p0 in let t1 := point_time c p1 in
  first_point c p0 /\ last_point c p1 /\ 2 <= n < 2 ^ 31 /\ n - 1 <= t1 - t0 /\ (n - 1) * (n - 2) <= t1 - t0 /\ (t1 - t0) / (n - 1) <= t0 /\ t1 + (t1 - t0) / (n - 1) < 2 ^ 32 * 1000000000 /\ t0 <> 2 ^ 32 - 1.
Lemma undist_cases {P T} (act : T -> P -> P) inv interp ident srt b to from tfn n c p0 p1 :
  (forall X p, act X (act (inv X) p) = p) -> sorts srt -> cloud_ok c -> transforms_over_time b to from tfn -> no_gaps tfn -> fine_cloud n c p0 p1 ->
  let t0 := point_time c p0 in let t1 := point_time c p1 in let step := (t1 - t0) / (n - 1) in
  match undistortPointcloud act inv interp ident srt (lookupTransform b to from) n c with
  | UStart => tfn (t0 - step) = None
  | UEnd => tfn (t1 + step) = None
  | USuccess pose pts => undistorted act (sampled interp tfn t0 step) c pose pts
  | UIntermediate | UAbort => False
  end.
Proof.
  intros Hi Hs Hc Ht Hg (F0 & F1 & F2 & F3 & F4 & F5 & F6 & F7) t0 t1 step. rewrite (undist_ext _ _ _ _ _ _ _ _ _ (look_by_ns b to from tfn Ht)).
  destruct (C56_undistorter_partial P T act inv interp ident srt tfn n c p0 p1 Hi Hs Hc Hg (proj1 F0) (proj1 F1)) as (A & B & C); try assumption.
  { intros p I. split; [apply F0, I|apply F1, I]. }
  fold t0 t1 step in A, B, C. destruct (tfn (t0 - step)) as [X|] eqn:E0; [|rewrite (A eq_refl); reflexivity].
  destruct (tfn (t1 + step)) as [Y|] eqn:E1; [|rewrite (B ltac:(discriminate) eq_refl); reflexivity].
  destruct (C ltac:(discriminate) ltac:(discriminate)) as (pose & pts & -> & U). exact U.
Qed.

(** ** Theorems: point clouds *)
Section THEOREMS.
Context {P T : Type} (act : T -> P -> P) (inv : T -> T) (interp : T -> T -> Q -> T) (ident : T) (srt : list (spoint P) -> list (spoint P)).
(** [it] was handled by a call of processQueue with transforms [tfs], when the clouds received so far ended with [b] *)
Definition handled (cfg : iconfig) (evs : list (event P T)) (it b : item P) (tfs : nat -> tf_buffer T) : Prop :=
  exists evs1 evs2 its, evs = evs1 ++ EvProcess tfs :: evs2 /\ received cfg evs1 (its ++ [b]) /\ In it (its ++ [b]).
Lemma handled_ex cfg evs log q o : Forall (event_ok cfg) evs -> irun act inv interp ident srt cfg evs = Some (log, q) -> In o log ->
  exists b tfs, handled cfg evs (cloud_of o) b tfs /\ item_ok (cloud_of o) /\ item_ok b /\ raw_ok act inv interp ident srt cfg tfs b o.
Proof.
  intros Ho Er I. destruct (history_inv act inv interp ident srt cfg evs log q Ho Er) as (its & _ & _ & _ & J). rewrite Forall_forall in J.
  destruct (J o I) as (e1 & tfs & e2 & i1 & b & E & R & Ii & Fi & Ra). rewrite Forall_forall in Fi. exists b, tfs. split; [exists e1, e2, i1; auto|]. split; [apply Fi, Ii|]. split; [|exact Ra].
  apply Fi, in_or_app. right. left. reflexivity.
Qed.
End THEOREMS.

(** Clouds leave the queue in the order of arrival, each once; nothing else is in the queue. *)
Theorem C57_fifo : forall P T (act : T -> P -> P) inv interp ident srt cfg evs log q,
  Forall (event_ok cfg) evs -> irun act inv interp ident srt cfg evs = Some (log, q) -> received cfg evs (map cloud_of log ++ q).
Proof. intros. destruct (history_inv act inv interp ident srt cfg evs log q) as (its & R & -> & _); assumption. Qed.
(** Without undistortion: the points of an integrated cloud are those of the message, the pose is the transform at its time. *)
Theorem C57_posed : forall P T (act : T -> P -> P) inv interp ident srt cfg evs log q it pose pts,
  sorts srt -> ic_undistort cfg = false -> Forall (event_ok cfg) evs -> irun act inv interp ident srt cfg evs = Some (log, q) -> In (Integrated it pose pts) log ->
  exists b tfs k, handled cfg evs it b tfs /\ transform_at (tfs k) (ic_world cfg) (fst it) (sc_base (snd it)) (Some pose) /\ Permutation (map (@sp_pos P) (sc_points (snd it))) pts.
Proof.
  intros P T act inv interp ident srt cfg evs log q it pose pts Hs Hu Ho Er I. destruct (handled_ex act inv interp ident srt cfg evs log q _ Ho Er I) as (b & tfs & H & Oi & _ & k & R).
  cbn [cloud_of] in *. rewrite Hu in R. destruct R as [R ->]. exists b, tfs, k. split; [exact H|]. split.
  - rewrite <- R. apply lookup_at. destruct Oi as [(_ & B & _) B2]. lia.
  - apply Permutation_map. apply (sort_sorted srt Hs _ (proj1 Oi)).
Qed.
(** With undistortion: an integrated cloud is the undistorted cloud of the message. *)
Theorem C57_undistorted_partial : forall P T (act : T -> P -> P) inv interp ident srt cfg evs log q it pose pts p0 p1,
  sorts srt -> (forall X p, act X (act (inv X) p) = p) -> ic_undistort cfg = true -> Forall (event_ok cfg) evs -> irun act inv interp ident srt cfg evs = Some (log, q) ->
  In (Integrated it pose pts) log -> fine_cloud (ic_n cfg) (snd it) p0 p1 ->
  exists b tfs k, handled cfg evs it b tfs /\ forall tfn, transforms_over_time (tfs k) (ic_world cfg) (fst it) tfn -> no_gaps tfn ->
    undistorted act (sampled interp tfn (point_time (snd it) p0) ((point_time (snd it) p1 - point_time (snd it) p0) / (ic_n cfg - 1))) (snd it) pose pts.
Proof.
  intros P T act inv interp ident srt cfg evs log q it pose pts p0 p1 Hs Hi Hu Ho Er I Hf. destruct (handled_ex act inv interp ident srt cfg evs log q _ Ho Er I) as (b & tfs & H & Oi & _ & k & R).
  cbn [cloud_of] in *. rewrite Hu in R. exists b, tfs, k. split; [exact H|]. intros tfn Ht Hg.
  pose proof (undist_cases act inv interp ident srt _ _ _ tfn _ _ p0 p1 Hi Hs (proj1 Oi) Ht Hg Hf) as C. cbv zeta in C, R. rewrite R in C. exact C.
Qed.
(** A cloud is dropped only if a cloud received since ends more than max_wait_for_pose after its start, provided that the clouds arrive
    in time order. *)
Definition arrive_in_order {P T} (cfg : iconfig) (evs : list (event P T)) : Prop :=
  forall evs1 evs2 its a b p q, evs = evs1 ++ evs2 -> received cfg evs1 (its ++ [b]) -> In a (its ++ [b]) -> first_point (snd a) p -> last_point (snd b) q ->
    point_time (snd a) p <= point_time (snd b) q.
Lemma too_long {P} srt (it b : item P) e s w : sorts srt -> item_ok it -> item_ok b ->
  (forall p q, first_point (snd it) p -> last_point (snd b) q -> point_time (snd it) p <= point_time (snd b) q) ->
  getEndTime srt (snd b) = Some e -> getStartTime srt (snd it) = Some s -> w < u64 (e - s) ->
  exists p q, first_point (snd it) p /\ last_point (snd b) q /\ w < point_time (snd b) q - point_time (snd it) p.
Proof.
  intros Hs Oi Ob Hord Ee Es W. destruct (ends_ex srt (snd it) Hs (proj1 Oi)) as (p0 & p1 & S0 & _ & F0 & _). destruct (ends_ex srt (snd b) Hs (proj1 Ob)) as (q0 & q1 & _ & S1 & _ & F1).
  rewrite S0 in Es. rewrite S1 in Ee. injection Es as <-. injection Ee as <-. exists p0, q1. split; [exact F0|]. split; [exact F1|]. specialize (Hord p0 q1 F0 F1).
  destruct Oi as [(_ & A1 & A2 & A3 & _) A4], Ob as [(_ & B1 & B2 & B3 & _) B4]. pose proof (A2 p0 (proj1 F0)). pose proof (B2 q1 (proj1 F1)). unfold point_time in *. rewrite u64_id in W by lia. exact W.
Qed.
Theorem C57_dropped : forall P T (act : T -> P -> P) inv interp ident srt cfg evs log q it,
  sorts srt -> ic_undistort cfg = false -> arrive_in_order cfg evs -> Forall (event_ok cfg) evs -> irun act inv interp ident srt cfg evs = Some (log, q) -> In (Dropped it) log ->
  exists b tfs p p', handled cfg evs it b tfs /\ first_point (snd it) p /\ last_point (snd b) p' /\ ic_wait cfg < point_time (snd b) p' - point_time (snd it) p.
Proof.
  intros P T act inv interp ident srt cfg evs log q it Hs Hu Hord Ho Er I. destruct (handled_ex act inv interp ident srt cfg evs log q _ Ho Er I) as (b & tfs & H & Oi & Ob & k & R).
  cbn [cloud_of] in *. destruct R as [(e & s & Ee & Es & W)|[C _]]; [|congruence].
  destruct (too_long srt it b e s (ic_wait cfg) Hs Oi Ob) as (p & p' & A); try assumption; [|exists b, tfs, p, p'; split; [exact H|exact A]].
  destruct H as (e1 & e2 & its & E & Rc & Ii). intros p p'. apply (Hord e1 (EvProcess tfs :: e2) its it b p p' E Rc Ii).
Qed.
(** With undistortion: or if the transform one sampling period before its start is not available. *)
Theorem C57_dropped_undistort_partial : forall P T (act : T -> P -> P) inv interp ident srt cfg evs log q it p0 p1,
  sorts srt -> (forall X p, act X (act (inv X) p) = p) -> ic_undistort cfg = true -> arrive_in_order cfg evs -> Forall (event_ok cfg) evs -> irun act inv interp ident srt cfg evs = Some (log, q) ->
  In (Dropped it) log -> fine_cloud (ic_n cfg) (snd it) p0 p1 ->
  exists b tfs, handled cfg evs it b tfs /\
    ((exists p p', first_point (snd it) p /\ last_point (snd b) p' /\ ic_wait cfg < point_time (snd b) p' - point_time (snd it) p) \/
     exists k, forall tfn, transforms_over_time (tfs k) (ic_world cfg) (fst it) tfn -> no_gaps tfn ->
       tfn (point_time (snd it) p0 - (point_time (snd it) p1 - point_time (snd it) p0) / (ic_n cfg - 1)) = None).
Proof.
  intros P T act inv interp ident srt cfg evs log q it p0 p1 Hs Hi Hu Hord Ho Er I Hf. destruct (handled_ex act inv interp ident srt cfg evs log q _ Ho Er I) as (b & tfs & H & Oi & Ob & k & R).
  cbn [cloud_of] in *. exists b, tfs. split; [exact H|]. destruct R as [(e & s & Ee & Es & W)|[_ R]]; [left|right; exists k].
  - apply (too_long srt it b e s (ic_wait cfg) Hs Oi Ob); try assumption. destruct H as (e1 & e2 & its & E & Rc & Ii). intros p p'. apply (Hord e1 (EvProcess tfs :: e2) its it b p p' E Rc Ii).
  - intros tfn Ht Hg. pose proof (undist_cases act inv interp ident srt _ _ _ tfn _ _ p0 p1 Hi Hs (proj1 Oi) Ht Hg Hf) as C. cbv zeta in C. cbv zeta in R. destruct R as [R|R]; rewrite R in C; [exact C|destruct C].
Qed.
(** After a call of processQueue a cloud is left only if a transform that it needs was not available. *)
Lemma waits_ex {P T} (act : T -> P -> P) inv interp ident srt cfg evs tfs log q : Forall (event_ok cfg) evs -> irun act inv interp ident srt cfg (evs ++ [EvProcess tfs]) = Some (log, q) ->
  q = [] \/ exists it r b, q = it :: r /\ item_ok it /\ item_ok b /\ raw_wait act inv interp ident srt cfg tfs b it.
Proof.
  intros Ho Er. rewrite irun_app in Er. destruct (irun act inv interp ident srt cfg evs) as [[l1 q1]|] eqn:E1; [|discriminate].
  destruct (history_inv act inv interp ident srt cfg evs l1 q1 Ho E1) as (its & _ & Ei & Fi & _). cbn [istep fst snd] in Er. destruct (processQueue act inv interp ident srt cfg tfs 0 q1) as [[l2 q2]|] eqn:Ep; [|discriminate].
  cbn in Er. injection Er as <- <-. destruct q1 as [|x q1']; [cbn in Ep; injection Ep as <- <-; left; reflexivity|].
  destruct (exists_last (l := x :: q1') ltac:(discriminate)) as (pre & b & Eb). destruct (process_spec act inv interp ident srt cfg tfs b _ 0 l2 q2 pre Eb Ep) as (A & _ & C).
  destruct C as [C|(it & r & C & W)]; [left; exact C|right]. exists it, r, b. split; [exact C|]. rewrite Forall_forall in Fi. split; [|split; [|exact W]]; apply Fi; rewrite Ei; apply in_or_app; right.
  - rewrite A, C. apply in_or_app. right. left. reflexivity.
  - rewrite Eb. apply in_or_app. right. left. reflexivity.
Qed.
Theorem C57_waits : forall P T (act : T -> P -> P) inv interp ident srt cfg evs tfs log q,
  ic_undistort cfg = false -> Forall (event_ok cfg) evs -> irun act inv interp ident srt cfg (evs ++ [EvProcess tfs]) = Some (log, q) ->
  q = [] \/ exists it r k, q = it :: r /\ transform_at (tfs k) (ic_world cfg) (fst it) (sc_base (snd it)) None.
Proof.
  intros P T act inv interp ident srt cfg evs tfs log q Hu Ho Er. destruct (waits_ex act inv interp ident srt cfg evs tfs log q Ho Er) as [E|(it & r & b & E & Oi & _ & _ & k & W)]; [left; exact E|right].
  exists it, r, k. split; [exact E|]. cbv zeta in W. rewrite Hu in W. rewrite <- W. apply lookup_at. destruct Oi as [(_ & B & _) B2]. lia.
Qed.
Theorem C57_waits_undistort_partial : forall P T (act : T -> P -> P) inv interp ident srt cfg evs tfs log q,
  sorts srt -> (forall X p, act X (act (inv X) p) = p) -> ic_undistort cfg = true -> Forall (event_ok cfg) evs -> irun act inv interp ident srt cfg (evs ++ [EvProcess tfs]) = Some (log, q) ->
  q = [] \/ exists it r k, q = it :: r /\ forall p0 p1 tfn, fine_cloud (ic_n cfg) (snd it) p0 p1 -> transforms_over_time (tfs k) (ic_world cfg) (fst it) tfn -> no_gaps tfn ->
    tfn (point_time (snd it) p1 + (point_time (snd it) p1 - point_time (snd it) p0) / (ic_n cfg - 1)) = None.
Proof.
  intros P T act inv interp ident srt cfg evs tfs log q Hs Hi Hu Ho Er. destruct (waits_ex act inv interp ident srt cfg evs tfs log q Ho Er) as [E|(it & r & b & E & Oi & _ & _ & k & W)]; [left; exact E|right].
  exists it, r, k. split; [exact E|]. intros p0 p1 tfn Hf Ht Hg. cbv zeta in W. rewrite Hu in W.
  pose proof (undist_cases act inv interp ident srt _ _ _ tfn _ _ p0 p1 Hi Hs (proj1 Oi) Ht Hg Hf) as C. cbv zeta in C. rewrite W in C. exact C.
Qed.
(** Without undistortion the program does not abort, provided that no message breaks off after the x or y field and, for Livox, the
    offset fits in an int32_t. *)
Theorem C57_no_abort : forall P T (act : T -> P -> P) inv interp ident srt cfg evs,
  sorts srt -> ic_undistort cfg = false -> Forall (event_ok cfg) evs -> (forall m, In (EvCloud m) evs -> ~ breaks_off (pm_fields m)) ->
  (forall m, In (EvLivox m) evs -> - 2 ^ 31 <= ic_offset cfg < 2 ^ 31) -> irun act inv interp ident srt cfg evs <> None.
Proof.
  intros P T act inv interp ident srt cfg evs Hs Hu. induction evs as [|e evs IH] using rev_ind; intros Ho Hf Hl; [discriminate|].
  apply Forall_app in Ho as [Ho He]. inversion He as [|? ? He' _]; subst. rewrite irun_app.
  destruct (irun act inv interp ident srt cfg evs) as [[l1 q1]|] eqn:E1; [|apply IH; [exact Ho|intros m I; apply Hf, in_or_app; left; exact I|intros m I; apply (Hl m), in_or_app; left; exact I]].
  destruct e as [m|m|tfs]; cbn [istep].
  - pose proof (callback_spec act inv interp ident srt cfg m He') as C. destruct (callback cfg m); [discriminate|discriminate|]. exfalso. apply (Hf m); [apply in_or_app; right; left; reflexivity|exact C].
  - pose proof (callback_livox_spec act inv interp ident srt cfg m He') as C. destruct (callback_livox cfg m); [discriminate|discriminate|]. exfalso. apply C, (Hl m), in_or_app. right. left. reflexivity.
  - destruct (history_inv act inv interp ident srt cfg evs l1 q1 Ho E1) as (its & _ & Ei & Fi & _). rewrite Ei in Fi. apply Forall_app in Fi as [_ Fi]. cbn [fst snd]. clear - Fi Hs Hu.
    assert (G : forall q k, Forall item_ok q -> processQueue act inv interp ident srt cfg tfs k q <> None).
    { induction q as [|it q IH]; intros k F; [discriminate|]. cbn [processQueue]. rewrite Hu. assert (Fb : item_ok (last (it :: q) it)).
      { rewrite Forall_forall in F. apply F. destruct (exists_last (l := it :: q) ltac:(discriminate)) as (pre & b & E). rewrite E, last_last. apply in_or_app. right. left. reflexivity. }
      inversion F as [|? ? F1 F2]; subst. destruct (ends_ex srt _ Hs (proj1 Fb)) as (? & ? & _ & -> & _). destruct (ends_ex srt _ Hs (proj1 F1)) as (? & ? & -> & _). specialize (IH (S k) F2).
      destruct (processQueue act inv interp ident srt cfg tfs (S k) q) as [r|]; [|congruence]. destruct (_ <? _); [discriminate|]. destruct (lookupTransform _ _ _ _); discriminate. }
    specialize (G q1 0%nat Fi). destruct (processQueue act inv interp ident srt cfg tfs 0 q1); [discriminate|congruence].
Qed.

(** ** Depth images *)
Section DEPTHSPEC.
Context {I J T : Type}.
Definition images (evs : list (devent I T)) : list (im_msg I) := flat_map (fun e => match e with DvImage m => [m] | DvProcess _ => [] end) evs.
Definition image_of (o : doutcome I J T) : im_msg I := match o with DIntegrated m _ _ => m | DDropped m => m end.
(** The transform of the sensor at the time of the image plus the configured offset *)
Definition image_pose (cfg : dconfig) (b : tf_buffer T) (m : im_msg I) (X : option T) : Prop :=
  exists f, uses_frame (dc_frame cfg) (im_frame m) f /\ transform_at b (dc_world cfg) f (fst (im_stamp m) * 1000000000 + snd (im_stamp m) + dc_offset cfg) X.
(** [m] was handled by a call of processQueue with transforms [tfs], when [b] was the last image received *)
Definition dhandled (evs : list (devent I T)) (m b : im_msg I) (tfs : nat -> tf_buffer T) : Prop :=
  exists evs1 evs2 its, evs = evs1 ++ DvProcess tfs :: evs2 /\ images evs1 = its ++ [b] /\ In m (its ++ [b]).
End DEPTHSPEC.
Lemma add_offset_some t d t' : add_offset t d = Some t' -> at_ns t' (fst t * 1000000000 + snd t + d).
Proof.
  unfold add_offset. cbv zeta. set (ns := fst t * 1000000000 + snd t + d). destruct (Z.leb_spec 0 ns); [|discriminate]. destruct (Z.ltb_spec ns (2 ^ 32 * 1000000000)); [|discriminate].
  cbn [andb]. intros E. injection E as <-. unfold at_ns. cbn [fst snd]. pose proof (Z.mod_pos_bound ns 1000000000 ltac:(lia)). pose proof (Z.div_mod ns 1000000000 ltac:(lia)).
  assert (0 <= ns / 1000000000 < 2 ^ 32) by (split; [apply Z.div_pos; lia|apply Z.div_lt_upper_bound; lia]). lia.
Qed.
Section DEPTHPROOF.
Context {I J T : Type} (conv : I -> option J).
Definition draw (cfg : dconfig) (tfs : nat -> tf_buffer T) (b : im_msg I) (o : doutcome I J T) : Prop :=
  exists k, match o with
  | DIntegrated m pose j => image_pose cfg (tfs k) m (Some pose) /\ conv (im_data m) = Some j
  | DDropped m => image_pose cfg (tfs k) m None /\ dc_wait cfg <= ns_of (im_stamp b) - ns_of (im_stamp m)
  end.
Definition dwait (cfg : dconfig) (tfs : nat -> tf_buffer T) (b m : im_msg I) : Prop :=
  exists k, (image_pose cfg (tfs k) m None /\ ns_of (im_stamp b) - ns_of (im_stamp m) < dc_wait cfg) \/ ((exists pose, image_pose cfg (tfs k) m (Some pose)) /\ conv (im_data m) = None).
Lemma dprocess_spec cfg tfs b : forall q k log q' pre, q = pre ++ [b] -> processImages conv cfg tfs k q = Some (log, q') ->
  q = map image_of log ++ q' /\ Forall (draw cfg tfs b) log /\ (q' = [] \/ exists m r, q' = m :: r /\ dwait cfg tfs b m).
Proof.
  induction q as [|m rest IH]; intros k log q' pre Eq Ep; [destruct pre; discriminate|]. cbn [processImages] in Ep.
  assert (Eb : last (m :: rest) m = b) by (rewrite Eq; apply last_last). rewrite Eb in Ep.
  destruct (add_offset (im_stamp m) (dc_offset cfg)) as [t|] eqn:Et; [|discriminate]. apply add_offset_some in Et.
  assert (PO : image_pose cfg (tfs k) m (lookupTransform (tfs k) (dc_world cfg) (frame_of (dc_frame cfg) (im_frame m)) t)).
  { exists (frame_of (dc_frame cfg) (im_frame m)). split; [apply frame_of_ok|]. eexists _, _, t. split; [apply bare_sanitize|]. split; [apply bare_sanitize|]. split; [exact Et|reflexivity]. }
  assert (NX : forall o, image_of o = m -> draw cfg tfs b o -> option_map (fun r => (o :: fst r, snd r)) (processImages conv cfg tfs (S k) rest) = Some (log, q') ->
    m :: rest = map image_of log ++ q' /\ Forall (draw cfg tfs b) log /\ (q' = [] \/ exists m r, q' = m :: r /\ dwait cfg tfs b m)).
  { intros o Ho Ro En. destruct (processImages conv cfg tfs (S k) rest) as [[l2 q2]|] eqn:Er; [|discriminate]. cbn in En. injection En as <- <-. cbn [map app]. rewrite Ho.
    destruct rest as [|x rest].
    - cbn in Er. injection Er as <- <-. split; [reflexivity|]. split; [constructor; [exact Ro|constructor]|left; reflexivity].
    - destruct pre as [|a pre]; [discriminate|]. cbn in Eq. injection Eq as -> Eq. destruct (IH (S k) l2 q2 pre Eq Er) as (A & B & C). split; [f_equal; exact A|]. split; [constructor; assumption|exact C]. }
  destruct (lookupTransform (tfs k) _ _ t) as [pose|].
  - destruct (conv (im_data m)) as [j|] eqn:Ec.
    + apply (NX (DIntegrated m pose j) eq_refl); [|exact Ep]. exists k. split; assumption.
    + injection Ep as <- <-. split; [reflexivity|]. split; [constructor|]. right. exists m, rest. split; [reflexivity|]. exists k. right. split; [exists pose; exact PO|exact Ec].
  - destruct (Z.ltb_spec (ns_of (im_stamp b) - ns_of (im_stamp m)) (dc_wait cfg)) as [W|W].
    + injection Ep as <- <-. split; [reflexivity|]. split; [constructor|]. right. exists m, rest. split; [reflexivity|]. exists k. left. split; assumption.
    + apply (NX (DDropped m) eq_refl); [|exact Ep]. exists k. split; assumption.
Qed.
Lemma drun_app cfg (evs : list (devent I T)) e : drun conv cfg (evs ++ [e]) = match drun conv cfg evs with Some s => dstep conv cfg s e | None => None end.
Proof. unfold drun. rewrite fold_left_app. reflexivity. Qed.
Lemma images_app (a b : list (devent I T)) : images (a ++ b) = images a ++ images b. Proof. apply flat_map_app. Qed.
Lemma dhistory cfg : forall evs log q, drun conv cfg evs = Some (log, q) -> images evs = map image_of log ++ q /\
  Forall (fun o => exists b tfs, dhandled evs (image_of o) b tfs /\ draw cfg tfs b o) log.
Proof.
  intros evs. induction evs as [|e evs IH] using rev_ind; intros log q Er; [injection Er as <- <-; split; [reflexivity|constructor]|].
  rewrite drun_app in Er. destruct (drun conv cfg evs) as [[l1 q1]|] eqn:E1; [|discriminate]. destruct (IH l1 q1 eq_refl) as [A B]. rewrite images_app.
  assert (B' : Forall (fun o => exists b tfs, dhandled (evs ++ [e]) (image_of o) b tfs /\ draw cfg tfs b o) l1).
  { eapply Forall_impl; [|exact B]. intros o (b & tfs & (e1 & e2 & its & -> & R) & D). exists b, tfs. split; [|exact D]. exists e1, (e2 ++ [e]), its. split; [rewrite <- app_assoc; reflexivity|exact R]. }
  destruct e as [m|tfs]; cbn [dstep fst snd] in Er.
  - injection Er as <- <-. split; [|exact B']. rewrite A, <- app_assoc. reflexivity.
  - destruct (processImages conv cfg tfs 0 q1) as [[l2 q2]|] eqn:Ep; [|discriminate]. cbn in Er. injection Er as <- <-. change (images [DvProcess tfs]) with (@nil (im_msg I)). rewrite app_nil_r.
    destruct q1 as [|x q1']; [cbn in Ep; injection Ep as <- <-; rewrite !app_nil_r in *; split; assumption|].
    destruct (exists_last (l := x :: q1') ltac:(discriminate)) as (pre & b & Eb). destruct (dprocess_spec cfg tfs b _ 0 l2 q2 pre Eb Ep) as (C & D & _).
    split; [rewrite A, C, map_app, app_assoc; reflexivity|]. apply Forall_app. split; [exact B'|]. rewrite Forall_forall in *. intros o Io. exists b, tfs. split; [|apply D, Io].
    exists evs, [], (map image_of l1 ++ pre). rewrite <- app_assoc, <- Eb. split; [reflexivity|]. split; [exact A|]. apply in_or_app. right. rewrite C. apply in_or_app. left. apply in_map, Io.
Qed.
End DEPTHPROOF.
Theorem C57_images_fifo : forall I J T conv cfg evs log q, @drun I J T conv cfg evs = Some (log, q) -> images evs = map image_of log ++ q.
Proof. intros. eapply dhistory. eassumption. Qed.
Theorem C57_images_posed : forall I J T conv cfg evs log q m pose j, @drun I J T conv cfg evs = Some (log, q) -> In (DIntegrated m pose j) log ->
  exists b tfs k, dhandled evs m b tfs /\ image_pose cfg (tfs k) m (Some pose) /\ conv (im_data m) = Some j.
Proof.
  intros I J T conv cfg evs log q m pose j Er Hi. destruct (dhistory conv cfg evs log q Er) as [_ F]. rewrite Forall_forall in F. destruct (F _ Hi) as (b & tfs & H & k & D). exists b, tfs, k. split; [exact H|exact D].
Qed.
(** An image is dropped only if its pose is not available and an image received since is at least max_wait_for_pose newer. *)
Theorem C57_images_dropped : forall I J T conv cfg evs log q m, @drun I J T conv cfg evs = Some (log, q) -> In (DDropped m) log ->
  exists b tfs k, dhandled evs m b tfs /\ image_pose cfg (tfs k) m None /\
    dc_wait cfg <= (fst (im_stamp b) * 1000000000 + snd (im_stamp b)) - (fst (im_stamp m) * 1000000000 + snd (im_stamp m)).
Proof.
  intros I J T conv cfg evs log q m Er Hi. destruct (dhistory conv cfg evs log q Er) as [_ F]. rewrite Forall_forall in F. destruct (F _ Hi) as (b & tfs & H & k & D). exists b, tfs, k. split; [exact H|exact D].
Qed.
(** After a call of processQueue an image is left only if its pose was not available (or it cannot be converted). *)
Theorem C57_images_wait : forall I J T conv cfg evs tfs log q, @drun I J T conv cfg (evs ++ [DvProcess tfs]) = Some (log, q) ->
  q = [] \/ exists m r, q = m :: r /\ (conv (im_data m) = None \/ exists k, image_pose cfg (tfs k) m None).
Proof.
  intros I J T conv cfg evs tfs log q Er. rewrite drun_app in Er. destruct (drun conv cfg evs) as [[l1 q1]|] eqn:E1; [|discriminate]. cbn [dstep fst snd] in Er.
  destruct (processImages conv cfg tfs 0 q1) as [[l2 q2]|] eqn:Ep; [|discriminate]. cbn in Er. injection Er as <- <-. destruct q1 as [|x q1']; [cbn in Ep; injection Ep as <- <-; left; reflexivity|].
  destruct (exists_last (l := x :: q1') ltac:(discriminate)) as (pre & b & Eb). destruct (dprocess_spec conv cfg tfs b _ 0 l2 q2 pre Eb Ep) as (_ & _ & C).
  destruct C as [C|(m & r & C & k & D)]; [left; exact C|right]. exists m, r. split; [exact C|]. destruct D as [[D _]|[_ D]]; [right; exists k; exact D|left; exact D].
Qed.
Theorem C57_images_no_abort : forall I J T conv cfg evs,
  (forall m, In m (images evs) -> 0 <= fst (im_stamp m) * 1000000000 + snd (im_stamp m) + dc_offset cfg < 2 ^ 32 * 1000000000) -> @drun I J T conv cfg evs <> None.
Proof.
  intros I J T conv cfg evs. induction evs as [|e evs IH] using rev_ind; intros Hr; [discriminate|]. rewrite drun_app. rewrite images_app in Hr.
  destruct (drun conv cfg evs) as [[l1 q1]|] eqn:E1; [|apply IH; intros m Im; apply Hr, in_or_app; left; exact Im]. destruct e as [m|tfs]; cbn [dstep fst snd]; [discriminate|].
  destruct (dhistory conv cfg evs l1 q1 E1) as [A _]. assert (Hq : forall m, In m q1 -> 0 <= fst (im_stamp m) * 1000000000 + snd (im_stamp m) + dc_offset cfg < 2 ^ 32 * 1000000000).
  { intros m Im. apply Hr. rewrite A. apply in_or_app. left. apply in_or_app. right. exact Im. }
  assert (G : forall k, processImages conv cfg tfs k q1 <> None).
  { clear - Hq. induction q1 as [|m q IH]; intros k; [discriminate|]. cbn [processImages]. destruct (add_offset_ok _ _ (Hq m (or_introl eq_refl))) as (t & -> & _).
    specialize (IH (fun m' Im => Hq m' (or_intror Im)) (S k)). destruct (processImages conv cfg tfs (S k) q) as [r|]; [|congruence].
    destruct (lookupTransform _ _ _ t); [destruct (conv _); discriminate|]. destruct (_ <? _); discriminate. }
  specialize (G 0%nat). destruct (processImages conv cfg tfs 0 q1); [discriminate|congruence].
Qed.

(** ** Non-vacuity: points and poses are positions on a line *)
Definition ex_cfg (u : bool) : iconfig := IC EmptyString (-500) u true 3 1000000000 "/odom"%string.
Definition ex_b (from upto : Z) : tf_buffer Z := fun to f t =>
  let ns := fst t * 1000000000 + snd t in if (String.eqb to "odom" && String.eqb f "lidar" && (from <=? ns) && (ns <=? upto))%bool then Some (2 * ns) else None.
Definition ex_fields : list string := ["x"%string; "y"%string; "z"%string; "t"%string].
Definition ex_msg (sec nsec : Z) (l : list (Z * Z)) : pc_msg Z := PM (sec, nsec) "/lidar"%string 1 (Z.of_nat (List.length l)) ex_fields l.
Definition run_in (cfg : iconfig) (evs : list (event Z Z)) := irun Z.add Z.opp lin 0 isort cfg evs.
Definition m1 := ex_msg 1 0 [(5, 40); (1, 0); (3, 15)].
Definition m2 := ex_msg 1 500000000 [(7, 0)].
Definition ex_it (b : Z) (l : list (spoint Z)) : item Z := ("/lidar"%string, SC b l false).
(** Two clouds arrive; the transform of the second comes later. *)
Example C57_ex : run_in (ex_cfg false) [EvCloud m1; EvProcess (fun _ => ex_b 0 0); EvCloud m2; EvProcess (fun _ => ex_b 0 1200000000); EvProcess (fun _ => ex_b 0 2000000000)] =
  Some ([Integrated (ex_it 999999500 [SP 5 0; SP 1 0; SP 3 0]) 1999999000 [5; 1; 3]; Integrated (ex_it 1499999500 [SP 7 0]) 2999999000 [7]], []) /\
  run_in (ex_cfg true) [EvCloud m1; EvProcess (fun _ => ex_b 0 1000000000); EvProcess (fun _ => ex_b 0 2000000000)] =
  Some ([Integrated (ex_it 999999500 [SP 5 40; SP 1 0; SP 3 15]) 1999999030 [-29; 3; 55]], []).
Proof. vm_compute. split; reflexivity. Qed.
Example C57_ex_ok : Forall (event_ok (T := Z) (ex_cfg false)) [EvCloud m1; EvProcess (fun _ => ex_b 0 0); EvCloud m2] /\ ~ breaks_off (pm_fields m1).
Proof.
  split.
  - constructor; [|constructor; [exact Logic.I|constructor; [|constructor]]]; unfold event_ok, at_ns; cbn; repeat split; try lia; intros; intuition (subst; cbn; lia).
  - intros (a & Ha & [E|E]); destruct a as [|a0 a]; cbn in E; try discriminate E; injection E as <- _; apply Ha; left; reflexivity.
Qed.
Definition ex_dcfg : dconfig := DC "cam"%string 0 1000000000 "odom"%string.
Definition ex_db (upto : Z) : tf_buffer Z := fun to f t => let ns := fst t * 1000000000 + snd t in if (ns <=? upto) then Some ns else None.
Example C57_images_ex :
  let im n := IM (n, 0) "x"%string n in
  drun (fun i : Z => Some (2 * i)) ex_dcfg [DvImage (im 5); DvProcess (fun _ => ex_db 4000000000); DvImage (im 6); DvProcess (fun _ => ex_db 4000000000); DvProcess (fun _ => ex_db 9000000000)] =
  Some ([DDropped (im 5); DIntegrated (im 6) 6000000000 12], []).
Proof. vm_compute. reflexivity. Qed.

(** ** False variants *)
(** A cloud can be dropped although its transform is available, if the clouds are processed late. *)
Theorem C57_available_pose_refuted : exists cfg evs tf it log q, ic_undistort cfg = false /\ Forall (event_ok cfg) evs /\ (forall X Y t, at_ns t (fst t * 1000000000 + snd t) -> tf X Y t <> None) /\
  run_in cfg (evs ++ [EvProcess (fun _ => tf)]) = Some (log, q) /\ In (Dropped it) log.
Proof.
  exists (ex_cfg false), [EvCloud m1; EvCloud (ex_msg 3 0 [(7, 0)])], (fun _ _ _ => Some 0), (ex_it 999999500 [SP 5 0; SP 1 0; SP 3 0]). eexists. eexists. split; [reflexivity|]. split; [|split; [discriminate|]].
  - constructor; [|constructor; [|constructor]]; unfold event_ok, at_ns; cbn; repeat split; try lia; intros; intuition (subst; cbn; lia).
  - split; [vm_compute; reflexivity|]. left. reflexivity.
Qed.
(** If the next cloud is one nanosecond older, the time difference wraps around, and a cloud that waits is dropped at once. *)
Theorem C57_out_of_order_refuted : exists cfg evs tfs it log q, ic_undistort cfg = false /\ Forall (event_ok cfg) evs /\
  (forall its a b p p', received cfg evs its -> In a its -> In b its -> In p (sc_points (snd a)) -> In p' (sc_points (snd b)) -> point_time (snd a) p - point_time (snd b) p' <= 1 < ic_wait cfg) /\
  run_in cfg (evs ++ [EvProcess tfs]) = Some (log, q) /\ In (Dropped it) log.
Proof.
  exists (ex_cfg false), [EvCloud (ex_msg 3 1 [(7, 0)]); EvCloud (ex_msg 3 0 [(7, 0)])], (fun _ => ex_b 0 0), (ex_it 2999999501 [SP 7 0]). eexists. eexists. split; [reflexivity|]. split; [|split].
  - constructor; [|constructor; [|constructor]]; unfold event_ok, at_ns; cbn; repeat split; try lia; intros; intuition (subst; cbn; lia).
  - intros its a b p p' R Ia Ib Ip Ip'.
    assert (G : forall x y, In x its -> In y (sc_points (snd x)) -> 2999999500 <= point_time (snd x) y <= 2999999501); [|pose proof (G a p Ia Ip); pose proof (G b p' Ib Ip'); cbn; lia].
    assert (K : forall evs its, received (ex_cfg false) evs its -> (forall e : event Z Z, In e evs -> e = EvCloud (ex_msg 3 1 [(7, 0)]) \/ e = EvCloud (ex_msg 3 0 [(7, 0)])) ->
      forall x y, In x its -> In y (sc_points (snd x)) -> 2999999500 <= point_time (snd x) y <= 2999999501).
    { clear. intros evs its R. induction R as [|evs its m it R IH N X C|evs its m R IH _|evs its m it R IH N C|evs its m R IH N|evs its tfs R IH]; intros Hall x y Ix Iy; [destruct Ix| | | | |].
      1: apply in_app_or in Ix as [Ix|[<-|[]]]; [apply (IH (fun e He => Hall e (in_or_app _ _ _ (or_introl He))) x y Ix Iy)|].
      - destruct C as (_ & Eb & _ & Ep). assert (NT : ~ timed (ex_cfg false) m) by (intros (A & _); discriminate A). specialize (Ep NT).
        destruct (Hall (EvCloud m) ltac:(apply in_or_app; right; left; reflexivity)) as [E|E]; injection E as E; subst m; cbn in Eb, Ep; rewrite Ep in Iy; destruct Iy as [<-|[]]; unfold point_time; rewrite Eb; cbn; lia.
      - apply (IH (fun e He => Hall e (in_or_app _ _ _ (or_introl He))) x y Ix Iy).
      - destruct (Hall (EvLivox m) ltac:(apply in_or_app; right; left; reflexivity)) as [E|E]; discriminate E.
      - apply (IH (fun e He => Hall e (in_or_app _ _ _ (or_introl He))) x y Ix Iy).
      - apply (IH (fun e He => Hall e (in_or_app _ _ _ (or_introl He))) x y Ix Iy). }
    intros x y Ix Iy. apply (K _ _ R); try assumption. intros e [<-|[<-|[]]]; auto.
  - split; [vm_compute; reflexivity|]. left. reflexivity.
Qed.
(** With undistortion, a cloud that is newer than all transforms is dropped at once instead of waiting for them. *)
Theorem C57_undistort_wait_refuted : exists cfg m tfs it log q, ic_undistort cfg = true /\ event_ok (T := Z) cfg (EvCloud m) /\
  run_in cfg [EvCloud m; EvProcess tfs] = Some (log, q) /\ In (Dropped it) log /\ forall p p', In p (sc_points (snd it)) -> In p' (sc_points (snd it)) -> point_time (snd it) p - point_time (snd it) p' < ic_wait cfg.
Proof.
  exists (ex_cfg true), m1, (fun _ => ex_b 0 900000000), (ex_it 999999500 [SP 5 40; SP 1 0; SP 3 15]). eexists. eexists. split; [reflexivity|]. split; [|split; [vm_compute; reflexivity|split; [left; reflexivity|]]].
  - unfold event_ok, at_ns; cbn; repeat split; try lia; intros; intuition (subst; cbn; lia).
  - intros p p' [<-|[<-|[<-|[]]]] [<-|[<-|[<-|[]]]]; vm_compute; reflexivity.
Qed.
(** A cloud message whose last field is x: the callback reads behind the end of the list of fields. *)
Theorem C57_fields_refuted : exists cfg m, event_ok (T := Z) cfg (EvCloud m) /\ @callback Z cfg m = CbError.
Proof.
  exists (ex_cfg false), (PM (3, 0) "/lidar"%string 1 1 ["z"%string; "y"%string; "x"%string] [(7, 0)]). split; [|vm_compute; reflexivity]. unfold event_ok, at_ns; cbn; repeat split; try lia; intros; intuition (subst; cbn; lia).
Qed.
(** A Livox cloud with a time offset of 3 s: the conversion of the offset to an int32_t is undefined. *)
Theorem C57_livox_offset_refuted : exists cfg m, event_ok (T := Z) cfg (EvLivox m) /\ @callback_livox Z cfg m = CbError.
Proof.
  exists (IC EmptyString 3000000000 true false 3 1000000000 "odom"%string), (LM 1000000000 "lidar"%string [(7, 0)]). split; [|vm_compute; reflexivity]. unfold event_ok; cbn; repeat split; try lia; intros; intuition (subst; cbn; lia).
Qed.
Print Assumptions C57_fifo.
Print Assumptions C57_posed.
Print Assumptions C57_undistorted_partial.
Print Assumptions C57_dropped.
Print Assumptions C57_dropped_undistort_partial.
Print Assumptions C57_waits.
Print Assumptions C57_waits_undistort_partial.
Print Assumptions C57_no_abort.
Print Assumptions C57_images_fifo.
Print Assumptions C57_images_posed.
Print Assumptions C57_images_dropped.
Print Assumptions C57_images_wait.
Print Assumptions C57_images_no_abort.
Print Assumptions C57_available_pose_refuted.
Print Assumptions C57_out_of_order_refuted.
Print Assumptions C57_undistort_wait_refuted.
Print Assumptions C57_fields_refuted.
Print Assumptions C57_livox_offset_refuted.
