(** * C47: configuration parsing *)
From Verif Require Import Base M_Config.
From Coq Require Import String QArith Lqa.
Close Scope Q_scope.
Open Scope Z_scope.
Open Scope list_scope.

(** ** Type names *)
Lemma ts_search_spec names : forall k name,
  (exists j, nth_error names j = Some name /\ ts_search names k name = k + Z.of_nat j /\ forall i, nth_error names i = Some name -> (j <= i)%nat) \/
  (~ In name names /\ ts_search names k name = -1).
Proof.
  induction names as [|n ns IH]; intros k name; [right; split; [intros []|reflexivity]|]. cbn [ts_search].
  destruct (String.eqb_spec name n) as [->|Hn].
  - left. exists 0%nat. split; [reflexivity|]. split; [lia|]. intros; lia.
  - destruct (IH (k + 1) name) as [(j & E & H & M)|[H E]].
    + left. exists (S j). split; [assumption|]. split; [lia|]. intros [|i] Hi; [cbn in Hi; congruence|]. apply M in Hi. lia.
    + right. split; [intros [C|C]; [congruence|contradiction]|assumption].
Qed.
(** A type name maps to its position in the list of names and back; other names are invalid. *)
Theorem C47_type_names : forall names, NoDup names ->
  (forall i n, nth_error names i = Some n ->
     ts_toTypeId names n = Z.of_nat i /\ ts_toStr names (Z.of_nat i) = n /\ ts_from_name names n = Some (Z.of_nat i) /\ ts_ofId names (Z.of_nat i) = Z.of_nat i) /\
  (forall n, ~ In n names -> ts_toTypeId names n = -1 /\ ts_from_name names n = None) /\
  (forall id, id < 0 \/ Z.of_nat (List.length names) <= id -> ts_isValid names id = false /\ ts_ofId names id = -1).
Proof.
  intros names ND. split; [|split].
  - intros i n H. assert (L : (i < List.length names)%nat) by (apply nth_error_Some; congruence).
    assert (V : ts_isValid names (Z.of_nat i) = true) by (unfold ts_isValid; lia).
    assert (T : ts_toTypeId names n = Z.of_nat i).
    { unfold ts_toTypeId. destruct (ts_search_spec names 0 n) as [(j & E & S & _)|[C _]].
      - rewrite S. assert (j = i) by (eapply (proj1 (NoDup_nth_error names) ND); [apply nth_error_Some; congruence|congruence]). lia.
      - exfalso. apply C. eapply nth_error_In. eassumption. }
    split; [assumption|]. unfold ts_toStr, ts_from_name, ts_ofId. rewrite T, V, Nat2Z.id. split; [apply nth_error_nth; assumption|]. split; reflexivity.
  - intros n H. unfold ts_from_name, ts_toTypeId. destruct (ts_search_spec names 0 n) as [(j & E & _)|[_ E]]; [exfalso; apply H; eapply nth_error_In; eassumption|].
    rewrite E. split; reflexivity.
  - intros id H. assert (V : ts_isValid names id = false) by (unfold ts_isValid; lia). split; [assumption|]. unfold ts_ofId. rewrite V. reflexivity.
Qed.
(** Even with repeated names, a found name is mapped back to itself. *)
Theorem C47_type_roundtrip : forall names n id, ts_from_name names n = Some id -> ts_toStr names id = n /\ In n names.
Proof.
  intros names n id. unfold ts_from_name, ts_toTypeId. destruct (ts_search_spec names 0 n) as [(j & E & S & _)|[_ E]].
  - rewrite S, Z.add_0_l. destruct (ts_isValid _ _) eqn:V; [|discriminate]. intros H. injection H as <-. unfold ts_toStr. rewrite V. rewrite Nat2Z.id.
    split; [apply nth_error_nth; assumption|eapply nth_error_In; eassumption].
  - rewrite E. cbn. discriminate.
Qed.

(** ** Units *)
(** [is_unit pi name si f]: one [name] is f times the SI unit. *)
Inductive is_unit (pi : Q) : string -> si_unit -> Q -> Prop :=
| u_m n : n = "meters"%string \/ n = "m"%string -> is_unit pi n kMeters 1
| u_dm n : n = "decimeters"%string \/ n = "dm"%string -> is_unit pi n kMeters (1 # 10)
| u_cm n : n = "centimeters"%string \/ n = "cm"%string -> is_unit pi n kMeters (1 # 100)
| u_mm n : n = "millimeters"%string \/ n = "mm"%string -> is_unit pi n kMeters (1 # 1000)
| u_rad n : n = "radians"%string \/ n = "rad"%string -> is_unit pi n kRadians 1
| u_deg n : n = "degrees"%string \/ n = "deg"%string -> is_unit pi n kRadians (pi / 180)
| u_px n : n = "pixels"%string \/ n = "px"%string -> is_unit pi n kPixels 1
| u_sec n : n = "seconds"%string \/ n = "sec"%string \/ n = "s"%string -> is_unit pi n kSeconds 1.
Lemma unit_table pi n si f : getUnitToSi pi n = Some (si, f) <-> is_unit pi n si f.
Proof.
  split.
  - unfold getUnitToSi, UnitToSi. cbn [mfind]. intros H.
    repeat match type of H with context [String.eqb ?a n] => destruct (String.eqb_spec a n) as [<-|?] end;
      try (injection H as <- <-; constructor; auto; fail). discriminate.
  - intros H; destruct H as [n [H|H]|n [H|H]|n [H|H]|n [H|H]|n [H|H]|n [H|H]|n [H|H]|n [H|[H|H]]]; subst n; reflexivity.
Qed.
(** A value with unit is read iff it is a single entry [unit: number] with a unit of the right kind, and is
    converted to the SI unit. *)
Theorem C47_units : forall pi unit p q,
  vu_from pi unit p = Some q <->
  exists name f v, p = PMap [(name, v)] /\ is_unit pi name unit f /\
    ((exists x, v = PFloat x /\ q = (x * f)%Q) \/ (exists z, v = PInt z /\ q = (inject_Z z * f)%Q)).
Proof.
  intros pi unit p q. split.
  - destruct p as [| | | | |[|[name v] [|]]]; cbn [vu_from]; try discriminate. destruct (getUnitToSi pi name) as [[si f]|] eqn:E; [|discriminate].
    apply unit_table in E. destruct (si_eqb si unit) eqn:S; cbn [negb]; [|discriminate]. assert (si = unit) by (destruct si, unit; reflexivity || discriminate). subst si.
    intros H. exists name, f, v. split; [reflexivity|]. split; [assumption|]. destruct v; try discriminate; injection H as <-; [right|left]; eexists; split; reflexivity.
  - intros (name & f & v & -> & U & H). cbn [vu_from]. apply unit_table in U. rewrite U. replace (si_eqb unit unit) with true by (destruct unit; reflexivity). cbn [negb].
    destruct H as [(x & -> & ->)|(z & -> & ->)]; reflexivity.
Qed.

(** ** Configs *)
(** The strings of a list, in order *)
Inductive only_strings : list pvalue -> list string -> Prop :=
| os_nil : only_strings [] []
| os_string s l names : only_strings l names -> only_strings (PString s :: l) (s :: names)
| os_other v l names : (forall s, v <> PString s) -> only_strings l names -> only_strings (v :: l) names.
Lemma strings_only l names : flat_map (fun v => match v with PString s => [s] | _ => [] end) l = names <-> only_strings l names.
Proof.
  split.
  - intros <-. induction l as [|v l IH]; [constructor|]. cbn [flat_map]. destruct v; cbn [app]; (apply os_string; exact IH) || (apply os_other; [discriminate|exact IH]).
  - induction 1 as [|s l names H IH|v l names N H IH]; [reflexivity|cbn; rewrite IH; reflexivity|]. cbn [flat_map]. destruct v; try exact IH. exfalso. eapply N. reflexivity.
Qed.
(** A parameter of the right type for a member, and the value it stands for. Integers are accepted for
    floating point members. Nested configs are read like configs. *)
Definition reads (pi : Q) (k : kind) (v : pvalue) (x : cvalue) : Prop :=
  match k with
  | KBool => exists b, v = PBool b /\ x = CBool b
  | KInt => exists z, v = PInt z /\ x = CInt z
  | KFloat => (exists q, v = PFloat q /\ x = CFloat q) \/ (exists z, v = PInt z /\ x = CFloat (inject_Z z))
  | KString => exists s, v = PString s /\ x = CString s
  | KType names => exists s i, (v = PString s \/ exists m, v = PMap m /\ mfind m "type" = Some (PString s)) /\ ts_from_name names s = Some i /\ x = CType i
  | KUnit u => exists q, vu_from pi u v = Some q /\ x = CUnit q
  | KStrings => (exists s, v = PString s /\ x = CStrings [s]) \/
      exists l names, v = PArray l /\ x = CStrings names /\ only_strings l names
  | KConfig ms => cfg_from pi ms v = Some x
  end.
Lemma readParam_reads pi k v x : readParam pi k v = Some x <-> reads pi k v x.
Proof.
  destruct k as [| | | |names|u| |ms].
  - destruct v; cbn; split; try discriminate; try (intros (? & ? & ?); discriminate).
    + intros H; injection H as <-; eauto.
    + intros (? & H & ->). injection H as <-. reflexivity.
  - destruct v; cbn; split; try discriminate; try (intros (? & ? & ?); discriminate).
    + intros H; injection H as <-; eauto.
    + intros (? & H & ->). injection H as <-. reflexivity.
  - destruct v; cbn; split; try discriminate; try (intros [(? & ? & ?)|(? & ? & ?)]; discriminate).
    + intros H; injection H as <-; eauto.
    + intros [(? & H & ->)|(? & H & ->)]; [discriminate|injection H as <-; reflexivity].
    + intros H; injection H as <-; eauto.
    + intros [(? & H & ->)|(? & H & ->)]; [injection H as <-; reflexivity|discriminate].
  - destruct v; cbn; split; try discriminate; try (intros (? & ? & ?); discriminate).
    + intros H; injection H as <-; eauto.
    + intros (? & H & ->). injection H as <-. reflexivity.
  - cbn [readParam reads]. unfold ts_from. split.
    + destruct (getTypeStr v) as [s|] eqn:E; [|discriminate]. destruct (ts_from_name names s) as [i|] eqn:F; [|discriminate]. intros H; injection H as <-.
      exists s, i. split; [|auto]. destruct v; cbn in E; try discriminate; [injection E as ->; left; reflexivity|]. right. exists m. split; [reflexivity|].
      change kTypeSelectorKey with "type"%string in E. destruct (mfind m "type") as [[]|]; try discriminate. injection E as ->. reflexivity.
    + intros (s & i & H & F & ->). assert (E : getTypeStr v = Some s).
      { destruct H as [->|(m & -> & H)]; [reflexivity|]. cbn. change kTypeSelectorKey with "type"%string. rewrite H. reflexivity. }
      rewrite E, F. reflexivity.
  - cbn [readParam reads]. destruct (vu_from pi u v) as [q|]; split.
    + intros H; injection H as <-. eauto.
    + intros (q' & H & ->). injection H as <-. reflexivity.
    + discriminate.
    + intros (q' & H & _). discriminate.
  - cbn [readParam reads]. split.
    + destruct v; cbn [strings_from]; try discriminate; intros H; injection H as <-; [left; eauto|].
      right. eexists. eexists. split; [reflexivity|]. split; [reflexivity|]. apply strings_only. reflexivity.
    + intros [(s & -> & ->)|(l & names & -> & -> & H)]; [reflexivity|]. apply strings_only in H. cbn [strings_from]. rewrite H. reflexivity.
  - reflexivity.
Qed.

Definition mname (m : string * kind * cvalue) : string := fst (fst m).
Definition load_one (pi : Q) (ms : list (string * kind * cvalue)) (c : list (string * cvalue)) (kv : string * pvalue) : list (string * cvalue) :=
  let '(pn, pv) := kv in
  if String.eqb pn kTypeSelectorKey then c else
  (fix load (l : list (string * kind * cvalue)) : list (string * cvalue) :=
     match l with
     | [] => c
     | (n, mk, _) :: l' => if String.eqb n pn then match readParam pi mk pv with Some x => cset c n x | None => c end else load l'
     end) ms.
Lemma mfind_cset c n v n' : mfind (cset c n v) n' = match mfind c n' with None => None | Some x => if String.eqb n n' then Some v else Some x end.
Proof.
  unfold cset. induction c as [|[k x] c IH]; cbn; [reflexivity|]. destruct (String.eqb_spec k n) as [->|]; cbn.
  - rewrite IH. destruct (String.eqb_spec n n'); reflexivity.
  - rewrite IH. destruct (String.eqb_spec k n') as [->|]; [|reflexivity]. destruct (String.eqb_spec n n') as [->|]; [contradiction|reflexivity].
Qed.
Lemma load_one_other pi ms c pn pv n : n <> pn -> mfind (load_one pi ms c (pn, pv)) n = mfind c n.
Proof.
  intros H. unfold load_one. destruct (String.eqb pn kTypeSelectorKey); [reflexivity|].
  induction ms as [|[[n' k] d] ms IH]; [reflexivity|]. destruct (String.eqb_spec n' pn) as [->|]; [|exact IH].
  destruct (readParam pi k pv) as [x|]; [|reflexivity]. rewrite mfind_cset. destruct (mfind c n); [|reflexivity]. destruct (String.eqb_spec pn n); [congruence|reflexivity].
Qed.
Lemma load_one_hit pi ms c n k d pv x0 : NoDup (map mname ms) -> In (n, k, d) ms -> n <> "type"%string -> mfind c n = Some x0 ->
  mfind (load_one pi ms c (n, pv)) n = match readParam pi k pv with Some x => Some x | None => Some x0 end.
Proof.
  intros ND Hin Ht Hc. unfold load_one. change kTypeSelectorKey with "type"%string. destruct (String.eqb_spec n "type"); [contradiction|].
  induction ms as [|[[n' k'] d'] ms IH]; [destruct Hin|]. inversion ND as [|? ? Hn ND']; subst. destruct (String.eqb_spec n' n) as [->|Hnn].
  - assert (E : k' = k). { destruct Hin as [E|Hin]; [congruence|]. exfalso. apply Hn. apply (in_map mname) in Hin. exact Hin. } subst k'.
    destruct (readParam pi k pv) as [x|]; [|assumption]. rewrite mfind_cset, Hc, String.eqb_refl. reflexivity.
  - apply IH; [assumption|]. destruct Hin as [E|Hin]; [congruence|assumption].
Qed.
Lemma load_type pi ms c pv : load_one pi ms c ("type"%string, pv) = c.
Proof. reflexivity. Qed.
Lemma mfind_defaults ms n k d : NoDup (map mname ms) -> In (n, k, d) ms -> mfind (defaults ms) n = Some d.
Proof.
  induction ms as [|[[n' k'] d'] ms IH]; intros ND Hin; [destruct Hin|]. inversion ND as [|? ? Hn ND']; subst. cbn. destruct (String.eqb_spec n' n) as [->|Hnn].
  - destruct Hin as [E|Hin]; [congruence|]. exfalso. apply Hn. apply (in_map mname) in Hin. exact Hin.
  - apply IH; [assumption|]. destruct Hin as [E|Hin]; [congruence|assumption].
Qed.
Lemma cset_keys c n v : map fst (cset c n v) = map fst c.
Proof. unfold cset. rewrite map_map. apply map_ext. intros [k x]. cbn. destruct (String.eqb k n); reflexivity. Qed.
Lemma load_keys pi ms c kv : map fst (load_one pi ms c kv) = map fst c.
Proof.
  destruct kv as [pn pv]. unfold load_one. destruct (String.eqb pn kTypeSelectorKey); [reflexivity|].
  induction ms as [|[[n' k] d] ms IH]; [reflexivity|]. destruct (String.eqb n' pn); [|exact IH]. destruct (readParam pi k pv); [apply cset_keys|reflexivity].
Qed.

(** Loading a config from a map never fails. Every member has the value its parameter stands for if there is
    one of the right type, and its default otherwise; members are neither added nor lost. Loading from anything
    but a map fails. *)
Theorem C47_config : forall pi ms, NoDup (map mname ms) ->
  (forall p, (forall m, p <> PMap m) -> cfg_from pi ms p = None) /\
  forall params, NoDup (map fst params) ->
  exists c, cfg_from pi ms (PMap params) = Some (CConfig c) /\ map fst c = map mname ms /\
    forall n k d, In (n, k, d) ms -> n <> "type"%string ->
      (forall v x, In (n, v) params -> reads pi k v x -> mfind c n = Some x) /\
      ((forall v x, In (n, v) params -> ~ reads pi k v x) -> mfind c n = Some d).
Proof.
  intros pi ms ND. split.
  - intros [| | | | |m] H; try reflexivity. exfalso. eapply H. reflexivity.
  - intros params NP. unfold cfg_from. cbn [readParam]. eexists. split; [reflexivity|].
    change (fold_left _ params (defaults ms)) with (fold_left (load_one pi ms) params (defaults ms)).
    split.
    { assert (K : forall l c, map fst (fold_left (load_one pi ms) l c) = map fst c) by (induction l as [|kv l IH]; intros c; cbn; [reflexivity|rewrite IH; apply load_keys]).
      rewrite K. unfold defaults. rewrite map_map. reflexivity. }
    intros n k d Hin Ht.
    assert (G : forall l c x0, NoDup (map fst l) -> mfind c n = Some x0 ->
      mfind (fold_left (load_one pi ms) l c) n = match mfind l n with Some v => match readParam pi k v with Some x => Some x | None => Some x0 end | None => Some x0 end).
    { induction l as [|[pn pv] l IH]; intros c x0 NL Hc; [assumption|]. inversion NL as [|? ? Hn NL']; subst. cbn [fold_left mfind].
      destruct (String.eqb_spec pn n) as [->|Hpn].
      - pose proof (load_one_hit pi ms c n k d pv x0 ND Hin Ht Hc) as L.
        assert (M : mfind l n = None).
        { clear - Hn. induction l as [|[a b] l IH]; [reflexivity|]. cbn. destruct (String.eqb_spec a n) as [->|]; [exfalso; apply Hn; left; reflexivity|]. apply IH. intros C. apply Hn. right. assumption. }
        destruct (readParam pi k pv) as [x|]; erewrite IH by eassumption; rewrite M; reflexivity.
      - apply IH; [assumption|]. rewrite load_one_other by congruence. assumption. }
    rewrite (G params (defaults ms) d NP (mfind_defaults _ _ _ _ ND Hin)). clear G.
    assert (F : forall v, mfind params n = Some v <-> In (n, v) params).
    { clear - NP. intros v. induction params as [|[a b] l IH]; [split; [discriminate|intros []]|]. inversion NP as [|? ? Hn NL]; subst. cbn.
      destruct (String.eqb_spec a n) as [->|Ha].
      - split; [intros H; injection H as ->; left; reflexivity|]. intros [H|H]; [congruence|]. exfalso. apply Hn. apply (in_map fst) in H. exact H.
      - rewrite IH by assumption. split; [tauto|]. intros [H|H]; [congruence|assumption]. }
    split.
    + intros v x Hv Hr. apply F in Hv. rewrite Hv. apply readParam_reads in Hr. rewrite Hr. reflexivity.
    + intros Hno. destruct (mfind params n) as [v|] eqn:E; [|reflexivity]. destruct (readParam pi k v) as [x|] eqn:R; [|reflexivity].
      exfalso. eapply Hno; [apply F; reflexivity|apply readParam_reads; eassumption].
Qed.
Definition ex_members : list (string * kind * cvalue) :=
  [("rate", KFloat, CFloat 1); ("count", KInt, CInt 5); ("width", KUnit kMeters, CUnit 2); ("mode", KType ["fast"; "slow"], CType 0);
   ("sub", KConfig [("on", KBool, CBool false)], CConfig [("on", CBool false)]); ("names", KStrings, CStrings [])]%string.
Example C47_ex : NoDup (map mname ex_members) /\
  cfg_from 3 ex_members (PMap [("count", PFloat 2); ("mode", PMap [("type", PString "slow")]); ("names", PArray [PString "a"; PInt 1; PString "b"]); ("other", PBool true); ("rate", PInt 7); ("sub", PMap [("on", PBool true); ("x", PInt 1)]); ("type", PString "t"); ("width", PMap [("cm", PInt 30)])])%string
  = Some (CConfig [("rate", CFloat 7); ("count", CInt 5); ("width", CUnit (30 # 100)); ("mode", CType 1); ("sub", CConfig [("on", CBool true)]); ("names", CStrings ["a"; "b"])])%string.
Proof. split; [|reflexivity]. repeat constructor; cbn; intuition discriminate. Qed.

Print Assumptions C47_type_names.
Print Assumptions C47_type_roundtrip.
Print Assumptions C47_units.
Print Assumptions C47_config.
