(** C92: settings that cannot be read are reported and keep their defaults, without undefined behaviour. *)
From Verif Require Import Base M_Config P_Config M_Factory P_Factory M_ConfigReport.
From Coq Require Import String QArith.
Close Scope Q_scope.
Open Scope Z_scope.
Open Scope list_scope.

(** ** Specification *)
(** neither a string nor a list *)
Definition no_strings (v : pvalue) : Prop := (forall s, v <> PString s) /\ (forall l, v <> PArray l).
(** A member for a list of strings, empty by default, is given something else, here or in a nested config. *)
Inductive mistyped_list : list (string * kind * cvalue) -> list (string * pvalue) -> Prop :=
| mt_here ms pm n v : In (n, KStrings, CStrings []) ms -> In (n, v) pm -> no_strings v -> mistyped_list ms pm
| mt_nested ms pm n ms' d pm' : In (n, KConfig ms', d) ms -> In (n, PMap pm') pm -> mistyped_list ms' pm' -> mistyped_list ms pm.
(** Config types have distinct member names, none of which is the key of type selectors, and lists of strings as defaults of such members. *)
Inductive config_type : list (string * kind * cvalue) -> Prop :=
| ct ms : NoDup (map mname ms) -> (forall n k d, In (n, k, d) ms -> n <> "type"%string) -> (forall n d, In (n, KStrings, d) ms -> exists l, d = CStrings l) ->
  (forall n ms' d, In (n, KConfig ms', d) ms -> config_type ms') -> config_type ms.
(** Maps have distinct keys. *)
Inductive distinct_keys : list (string * pvalue) -> Prop :=
| dk pm : NoDup (map fst pm) -> (forall n pm', In (n, PMap pm') pm -> distinct_keys pm') -> distinct_keys pm.

(** ** Proofs *)
Lemma print_concat sep r : forall x, fold_left (fun str el => (str ++ sep ++ el)%string) r x = String.concat sep (x :: r).
Proof.
  assert (A : forall a b c : string, ((a ++ b) ++ c)%string = (a ++ b ++ c)%string) by (induction a as [|ch a IH]; intros; cbn; [reflexivity|rewrite IH; reflexivity]).
  assert (G : forall r x y, fold_left (fun str el => (str ++ sep ++ el)%string) r (x ++ y)%string = (x ++ fold_left (fun str el => (str ++ sep ++ el)%string) r y)%string).
  { clear r. induction r as [|z r IH]; intros x y; [reflexivity|]. cbn [fold_left]. rewrite A. apply IH. }
  induction r as [|y r IH]; intros x; [reflexivity|]. cbn [fold_left]. rewrite G, G, IH. reflexivity.
Qed.
Section LOAD.
Context (pi : Q).
Definition step (ms : list (string * kind * cvalue)) (st : list (string * cvalue) * bool) (kv : string * pvalue) : list (string * cvalue) * bool :=
  let '(c, ok) := st in
  let '(pn, pv) := kv in
  if String.eqb pn kTypeSelectorKey then st else
  (fix load (l : list (string * kind * cvalue)) : list (string * cvalue) * bool :=
     match l with
     | [] => st
     | (n, mk, _) :: l' =>
         if String.eqb n pn then
           match readParam pi mk pv with
           | Some x => (cset c n x, ok && load_safe pi mk pv)
           | None => (c, ok && load_safe pi mk pv && reportable mk (mfind c n))
           end
         else load l'
     end) ms.
(** what a parameter contributes, with the member's default as its current value *)
Definition check (ms : list (string * kind * cvalue)) (kv : string * pvalue) : bool :=
  match find (fun m => String.eqb (mname m) (fst kv)) ms with
  | Some (_, mk, d) => load_safe pi mk (snd kv) && match readParam pi mk (snd kv) with Some _ => true | None => reportable mk (Some d) end
  | None => true
  end.
Lemma find_member ms n m : find (fun m => String.eqb (mname m) n) ms = Some m -> In m ms /\ mname m = n.
Proof. intros H. apply find_some in H as [H E]. apply String.eqb_eq in E. auto. Qed.
Lemma step_other ms c ok pn pv n : n <> pn -> mfind (fst (step ms (c, ok) (pn, pv))) n = mfind c n.
Proof.
  intros N. unfold step. destruct (String.eqb pn kTypeSelectorKey); [reflexivity|]. induction ms as [|[[n' k] d] ms IH]; [reflexivity|].
  destruct (String.eqb_spec n' pn) as [->|]; [|exact IH]. destruct (readParam pi k pv) as [x|]; [|reflexivity]. cbn [fst]. rewrite mfind_cset. destruct (mfind c n); [|reflexivity].
  destruct (String.eqb_spec pn n); [congruence|reflexivity].
Qed.
Lemma step_ok ms c ok pn pv : (forall n k d, In (n, k, d) ms -> n <> "type"%string) -> (forall n k d, In (n, k, d) ms -> n = pn -> mfind c n = Some d) ->
  snd (step ms (c, ok) (pn, pv)) = ok && check ms (pn, pv).
Proof.
  intros T D. unfold step, check. cbn [fst snd]. destruct (String.eqb_spec pn kTypeSelectorKey) as [->|N].
  - destruct (find _ ms) as [[[n k] d]|] eqn:E; [|rewrite andb_true_r; reflexivity]. apply find_member in E as [H E]. exfalso. apply (T n k d H). exact E.
  - clear T. induction ms as [|[[n' k] d] ms IH]; [cbn; rewrite andb_true_r; reflexivity|]. cbn [find]. unfold mname at 1. cbn [fst].
    destruct (String.eqb_spec n' pn) as [E|_]; [|apply IH; intros n k' d' H; apply (D n k' d'); right; exact H].
    destruct (readParam pi k pv); cbn [snd]; [rewrite andb_true_r; reflexivity|]. rewrite (D n' k d (or_introl eq_refl) E), andb_assoc. reflexivity.
Qed.
Lemma fold_ok ms : (forall n k d, In (n, k, d) ms -> n <> "type"%string) -> forall pm c ok, NoDup (map fst pm) ->
  (forall n k d, In (n, k, d) ms -> In n (map fst pm) -> mfind c n = Some d) -> snd (fold_left (step ms) pm (c, ok)) = ok && forallb (check ms) pm.
Proof.
  intros T. induction pm as [|[pn pv] pm IH]; intros c ok ND D; [cbn; rewrite andb_true_r; reflexivity|]. cbn [fold_left forallb]. inversion ND as [|? ? NI ND']. subst.
  pose proof (step_ok ms c ok pn pv T (fun n k d H E => D n k d H (or_introl (eq_sym E)))) as S. pose proof (step_other ms c ok pn pv) as O.
  destruct (step ms (c, ok) (pn, pv)) as [c' ok']. cbn [fst snd] in *. subst ok'. rewrite IH; [rewrite andb_assoc; reflexivity|exact ND'|].
  intros n k d H Hn. rewrite O; [apply (D n k d H); right; exact Hn|]. intros ->. exact (NI Hn).
Qed.
Lemma safe_check ms pm : config_type ms -> NoDup (map fst pm) -> load_safe pi (KConfig ms) (PMap pm) = forallb (check ms) pm.
Proof.
  intros [ms' N T _ _] ND. change (load_safe pi (KConfig ms') (PMap pm)) with (snd (fold_left (step ms') pm (defaults ms', true))).
  rewrite (fold_ok ms' T); [reflexivity|exact ND|]. intros n k d H _. apply (mfind_defaults ms' n k d N H).
Qed.
Lemma find_unique ms n k d : NoDup (map mname ms) -> In (n, k, d) ms -> find (fun m => String.eqb (mname m) n) ms = Some (n, k, d).
Proof.
  induction ms as [|[[n' k'] d'] ms IH]; intros ND H; [destruct H|]. cbn [find]. unfold mname at 1. cbn [fst]. inversion ND as [|? ? NI ND']. subst. destruct H as [[= -> -> ->]|H].
  - rewrite String.eqb_refl. reflexivity.
  - destruct (String.eqb_spec n' n) as [->|]; [|apply IH; assumption]. exfalso. apply NI. apply (in_map mname) in H. exact H.
Qed.
Lemma no_strings_from v : strings_from v = None <-> no_strings v.
Proof. unfold no_strings. destruct v; cbn; split; try discriminate; try (intros _; split; discriminate); try reflexivity; intros [A B]; exfalso; [eapply A|eapply B]; reflexivity. Qed.
Lemma unsafe_iff ms : config_type ms -> forall pm, distinct_keys pm -> (load_safe pi (KConfig ms) (PMap pm) = false <-> mistyped_list ms pm).
Proof.
  intros CT. pose proof CT as CT0. induction CT as [ms N T S C IH]. intros pm DK. destruct DK as [pm NP DN]. rewrite (safe_check ms pm CT0 NP). split.
  - intros E. assert (X : exists kv, In kv pm /\ check ms kv = false).
    { clear - E. induction pm as [|kv pm IH]; [discriminate|]. cbn [forallb] in E. destruct (check ms kv) eqn:K; [destruct (IH E) as (x & H & X); exists x; split; [right; exact H|exact X]|exists kv; split; [left; reflexivity|exact K]]. }
    destruct X as ([pn pv] & H & X). unfold check in X. cbn [fst snd] in X. destruct (find _ ms) as [[[n k] d]|] eqn:F; [|discriminate]. apply find_member in F as [F Fn]. unfold mname in Fn. cbn [fst] in Fn. subst pn.
    apply andb_false_iff in X as [X|X].
    + destruct k; try discriminate X. destruct pv as [| | | | |pm']; try discriminate X. apply (mt_nested ms pm n members d pm' F H). apply (IH n members d F (C n members d F)); [exact (DN n pm' H)|exact X].
    + destruct (readParam pi k pv) eqn:R; [discriminate|]. destruct k; try discriminate X. destruct (S n d F) as [l ->]. cbn [reportable] in X. destruct l; [|discriminate X].
      apply (mt_here ms pm n pv F H). apply no_strings_from. cbn [readParam] in R. destruct (strings_from pv); [discriminate|reflexivity].
  - intros M. assert (X : exists kv, In kv pm /\ check ms kv = false).
    { destruct M as [ms pm n v Hm Hp Hv|ms pm n ms' d pm' Hm Hp M].
      - exists (n, v). split; [exact Hp|]. unfold check. cbn [fst snd]. rewrite (find_unique ms n _ _ N Hm). cbn [readParam]. apply no_strings_from in Hv. rewrite Hv. cbn. reflexivity.
      - exists (n, PMap pm'). split; [exact Hp|]. unfold check. cbn [fst snd]. rewrite (find_unique ms n _ _ N Hm). apply andb_false_iff. left. apply (IH n ms' d Hm (C n ms' d Hm)); [exact (DN n pm' Hp)|exact M]. }
    destruct X as (kv & H & X). apply not_true_iff_false. intros A. rewrite forallb_forall in A. rewrite (A kv H) in X. discriminate.
Qed.
End LOAD.

(** ** Theorems *)
(** Non-empty lists print as their elements, separated and in brackets; the empty list cannot be printed. *)
Theorem C92_text : forall l, (l <> [] -> strings_toStr l = Some ("[" ++ String.concat ", " l ++ "]")%string) /\ (l = [] -> strings_toStr l = None).
Proof. intros [|x l]; split; intros H; try congruence; try reflexivity. unfold strings_toStr, print_sequence. cbn [option_map]. rewrite print_concat. reflexivity. Qed.
(** Reading a config is undefined exactly if a list of strings that is empty by default is given something else. *)
Theorem C92_undefined : forall pi ms pm, config_type ms -> distinct_keys pm -> (cfg_load pi ms (PMap pm) = None <-> mistyped_list ms pm).
Proof.
  intros pi ms pm CT DK. rewrite <- (unsafe_iff pi ms CT pm DK). unfold cfg_load. destruct (load_safe pi (KConfig ms) (PMap pm)); split; congruence.
Qed.
(** Otherwise the config is that of C47, whatever else is wrong with the parameters. *)
Theorem C92_defined : forall pi ms p, config_type ms -> (forall pm, p = PMap pm -> distinct_keys pm /\ ~ mistyped_list ms pm) -> cfg_load pi ms p = Some (cfg_from pi ms p).
Proof.
  intros pi ms p CT H. unfold cfg_load. destruct (load_safe pi (KConfig ms) p) eqn:E; [reflexivity|]. exfalso. destruct p; try discriminate E.
  destruct (H m eq_refl) as [DK NM]. apply NM. apply (unsafe_iff pi ms CT m DK). exact E.
Qed.
Ltac members H := cbn in H; repeat (destruct H as [H|H]; [|]); try contradiction H.
Lemma flat_type ms : NoDup (map mname ms) -> (forall n k d, In (n, k, d) ms -> n <> "type"%string /\ (k = KStrings -> d = CStrings []) /\ forall ms', k <> KConfig ms') -> config_type ms.
Proof.
  intros N H. constructor; [exact N| | |].
  - intros n k d I. exact (proj1 (H n k d I)).
  - intros n d I. exists []. exact (proj1 (proj2 (H n _ d I)) eq_refl).
  - intros n ms' d I. exfalso. exact (proj2 (proj2 (H n _ d I)) ms' eq_refl).
Qed.
Ltac flat := apply flat_type; [repeat constructor; cbn; intuition congruence|]; let H := fresh in intros ? ? ? H; members H; injection H as <- <- <-; (split; [discriminate|split; [intros; try discriminate; reflexivity|discriminate]]).
Lemma circular_type : config_type CircularProjectorConfig.
Proof. flat. Qed.
Lemma members_type k : config_type (members_of k).
Proof.
  destruct k; cbn [members_of]; try flat.
  - constructor; [repeat constructor; cbn; intuition congruence| | |]; intros ? ? ; [intros ? H|intros H|intros ? H]; members H; try discriminate H; injection H as <- <- <-; try discriminate; exact circular_type.
  - constructor; [repeat constructor; cbn; intuition congruence| | |]; intros ? ? ; [intros ? H|intros H|intros ? H]; members H; try discriminate H; injection H as <- <- <-; try discriminate; exact circular_type.
Qed.
Lemma circular_fine pm : ~ mistyped_list CircularProjectorConfig pm.
Proof. intros M. inversion M as [? ? ? ? H|? ? ? ? ? ? H]; subst; members H; discriminate H. Qed.
(** Of the components that are made from parameters (maps, projectors, measurement models, integrators, operations, inputs) only the two inputs are affected,
    and only by their integrator names. *)
Theorem C92_components : forall k pi pm, distinct_keys pm ->
  (cfg_load pi (members_of k) (PMap pm) = None <-> (k = PointcloudTopicInput \/ k = DepthImageTopicInput) /\ exists v, In ("measurement_integrator_names"%string, v) pm /\ no_strings v).
Proof.
  intros k pi pm DK. rewrite (C92_undefined pi _ pm (members_type k) DK). split.
  - intros M. inversion M as [? ? n v H Hp Hv|? ? n ms' d pm' H Hp Hn]; subst; destruct k; cbn [members_of] in H; members H; try discriminate H; injection H as <-; subst;
      try (split; [tauto|exists v; split; assumption]); exfalso; exact (circular_fine pm' Hn).
  - intros [[->| ->] (v & Hv & Hs)]; apply (mt_here _ pm "measurement_integrator_names" v); try assumption; cbn; tauto.
Qed.
(** The default is not kept in every case: a number instead of the names of the integrators of a point cloud input is undefined behaviour while it is being reported. *)
Theorem C92_keeps_default_refuted : exists ms pm, ms = PointcloudTopicInputConfig /\ config_type ms /\ distinct_keys pm /\
  pm = [("topic_name", PString "points"); ("measurement_integrator_names", PInt 5)]%string /\ forall pi, cfg_load pi ms (PMap pm) = None.
Proof.
  assert (DK : distinct_keys [("topic_name", PString "points"); ("measurement_integrator_names", PInt 5)]%string).
  { constructor; [repeat constructor; cbn; intuition congruence|]. intros n pm' [H|[H|[]]]; discriminate H. }
  pose proof (members_type PointcloudTopicInput) as CT. cbn [members_of] in CT.
  eexists _, _. split; [reflexivity|]. split; [exact CT|]. split; [exact DK|]. split; [reflexivity|]. intros pi. apply C92_undefined; [exact CT|exact DK|].
  apply (mt_here _ _ "measurement_integrator_names" (PInt 5)); [cbn; tauto|cbn; tauto|split; discriminate].
Qed.
(** Other mistakes are harmless: here the queue length is a string, and the list contains a number besides a name. *)
Example C92_defined_ex : exists pm, distinct_keys pm /\ ~ mistyped_list PointcloudTopicInputConfig pm /\
  pm = [("topic_queue_length", PString "ten"); ("measurement_integrator_names", PArray [PInt 5; PString "lidar"])]%string /\
  exists c, cfg_load (22 # 7) PointcloudTopicInputConfig (PMap pm) = Some (Some (CConfig c)) /\ mfind c "topic_queue_length" = Some (CInt 10) /\
    mfind c "measurement_integrator_names" = Some (CStrings ["lidar"%string]).
Proof.
  eexists. split; [|split; [|split; [reflexivity|]]].
  - constructor; [repeat constructor; cbn; intuition congruence|]. intros n pm' [H|[H|[]]]; discriminate H.
  - intros M. inversion M as [ms pm n v Hm Hp [V1 V2]|ms pm n ms' d pm' Hm Hp]; subst.
    + destruct Hp as [[= <- <-]|[[= <- <-]|[]]]; [eapply V1|eapply V2]; reflexivity.
    + destruct Hp as [Hp|[Hp|[]]]; discriminate Hp.
  - eexists. split; [vm_compute; reflexivity|]. split; reflexivity.
Qed.
Example C92_components_ex : exists pm, distinct_keys pm /\ pm = [("elevation", PMap [("num_cells", PString "many")]); ("azimuth", PInt 3)]%string /\
  cfg_load (22 # 7) (members_of SphericalProjector) (PMap pm) <> None /\ cfg_load (22 # 7) (members_of DepthImageTopicInput) (PMap [("measurement_integrator_names"%string, PMap pm)]) = None.
Proof.
  eexists. split; [|split; [reflexivity|split; [vm_compute; discriminate|vm_compute; reflexivity]]].
  constructor; [repeat constructor; cbn; intuition congruence|]. intros n pm' [H|[H|[]]]; [|discriminate H]. injection H as <- <-.
  constructor; [repeat constructor; cbn; intuition congruence|]. intros n pm' [H|[]]; discriminate H.
Qed.
Example C92_text_ex : strings_toStr ["a"; "b"]%string = Some "[a, b]"%string.
Proof. reflexivity. Qed.
Print Assumptions C92_text.
Print Assumptions C92_undefined.
Print Assumptions C92_defined.
Print Assumptions C92_components.
Print Assumptions C92_keeps_default_refuted.
