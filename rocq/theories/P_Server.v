(** * C71: the map of the ROS server *)
From Verif Require Import Base M_Num F_Num M_HashedBlocks P_HashedBlocks M_Ndtree M_Stream P_Stream M_FileIO P_FileIO M_Server.
From Coq Require Import QArith Qcanon.
Close Scope Qc_scope. Close Scope Q_scope. Open Scope Z_scope.

Section SPEC.
Context {V : Type} (N : M_Num.num V) (enc : V -> Z) (dec : Z -> V).
Notation any := (anymap (V := V)).
Context (clear threshold : any -> any) (allow_reset : bool).
Notation vop := (vop (V := V)). Notation vans := (vans (V := V)).
(** ** Specification *)
(** What a user expects: there is one map. Measurements change it and it is published; reset_map clears it if that is allowed; save_map saves it; load_map
    replaces it, or leaves it as it is if it fails. *)
Definition expected_step (fuel : nat) (o : vop) (m : any) (d : fs) : option (vans * (any * fs + fs)) :=
  match o with
  | VMeasure f => Some (VPublished (f m), inl (f m, d))
  | VReset => Some (VAnswer allow_reset, inl (if allow_reset then clear m else m, d))
  | VSave p e => match mapToFile N enc fuel (threshold m) p e d with
                 | None => None
                 | Some (Returned b d') => Some (VAnswer b, inl (threshold m, d'))
                 | Some (Crashed d') => Some (VEnded, inr d')
                 end
  | VLoad now p r => match fileToMap N dec fuel now p r d with
                     | None => None
                     | Some LdAbort => Some (VEnded, inr d)
                     | Some (LdTrue m') => Some (VLoaded (LdTrue m'), inl (m', d))
                     | Some x => Some (VLoaded x, inl (m, d))
                     end
  end.
Fixpoint expected (fuel : nat) (ops : list vop) (m : any) (d : fs) : option (list vans) :=
  match ops with
  | [] => Some []
  | o :: ops' => match expected_step fuel o m d with
                 | None => None
                 | Some (x, inr _) => Some [x]
                 | Some (x, inl (m', d')) => match expected fuel ops' m' d' with None => None | Some l => Some (x :: l) end
                 end
  end.
(** The answers of the server *)
Definition answers (fuel : nat) (ops : list vop) (m : any) (d : fs) : option (list vans) :=
  option_map fst (vrun N enc dec clear threshold allow_reset fuel ops (new_server m d)).
(** The load replaced the map, or the file's type was unknown. *)
Definition replaced (x : vans) : Prop := match x with VLoaded (LdTrue _) | VLoaded LdNull => True | _ => False end.
Definition is_measure (o : vop) : bool := match o with VMeasure _ => true | _ => false end.
Definition is_load (o : vop) : bool := match o with VLoad _ _ _ => true | _ => false end.
Definition is_published (x : vans) : bool := match x with VPublished _ => true | _ => false end.

(** ** Facts *)
Definition both (m : any) (d : fs) (s : server (V := V)) : Prop := s_heap s (s_pipe s) = m /\ s_ptr s = Some (s_pipe s) /\ s_files s = d.
Lemma h_get h k (m : any) : h_set h k m k = m. Proof. unfold h_set. rewrite Nat.eqb_refl. reflexivity. Qed.
Lemma h_other h k j (m : any) : j <> k -> h_set h k m j = h j. Proof. intros H. unfold h_set. destruct (Nat.eqb_spec j k); [contradiction|reflexivity]. Qed.
Lemma one_map fuel ops : forall m d s ans st, both m d s -> vrun N enc dec clear threshold allow_reset fuel ops s = Some (ans, st) ->
  (forall k, (k + 1 < length ans)%nat -> ~ replaced (nth k ans VEnded)) -> expected fuel ops m d = Some ans.
Proof.
  induction ops as [|o ops IH]; intros m d s ans st B R H; cbn [vrun expected] in *.
  - injection R as <- <-. reflexivity.
  - destruct B as (B1 & B2 & B3).
    assert (K : forall x s' m' d', vstep N enc dec clear threshold allow_reset fuel o s = Some (x, inl s') -> expected_step fuel o m d = Some (x, inl (m', d')) ->
      (~ replaced x -> both m' d' s') -> match expected_step fuel o m d with None => None | Some (x, inr _) => Some [x]
         | Some (x, inl (m', d')) => match expected fuel ops m' d' with None => None | Some l => Some (x :: l) end end = Some ans).
    { intros x s' m' d' E1 E2 B'. rewrite E1 in R. rewrite E2. destruct (vrun _ _ _ _ _ _ _ ops s') as [[l t]|] eqn:ER; [|discriminate]. injection R as <- <-.
      destruct ops as [|o' ops'].
      - cbn [vrun] in ER. injection ER as <- <-. reflexivity.
      - assert (L : (1 <= length l)%nat).
        { cbn [vrun] in ER. destruct (vstep _ _ _ _ _ _ _ o' s') as [[y [s2|d2]]|]; [|injection ER as <- <-; cbn; lia|discriminate].
          destruct (vrun _ _ _ _ _ _ _ ops' s2) as [[l' t']|]; [injection ER as <- <-; cbn; lia|discriminate]. }
        rewrite (IH m' d' s' l t); [reflexivity|apply B'|exact ER|].
        + exact (H 0%nat ltac:(cbn [length]; lia)).
        + intros k Hk. exact (H (S k) ltac:(cbn [length]; lia)). }
    destruct o as [f| |p e|now p r]; cbn [vstep expected_step] in *.
    + eapply K; [reflexivity|rewrite B1; reflexivity|]. intros _. repeat split; cbn; try assumption. rewrite h_get, B1. reflexivity.
    + rewrite B2 in K, R. destruct allow_reset.
      * eapply K; [reflexivity|reflexivity|]. intros _. repeat split; cbn; try assumption. rewrite h_get, B1. reflexivity.
      * eapply K; [reflexivity|reflexivity|]. intros _. repeat split; assumption.
    + rewrite B2, B1, B3 in K, R. destruct (mapToFile _ _ _ _ _ _ _) as [[b d'|d']|].
      * eapply K; [reflexivity|reflexivity|]. intros _. repeat split; cbn; try assumption. rewrite h_get. reflexivity.
      * injection R as <- <-. reflexivity.
      * discriminate.
    + rewrite B3 in K, R. destruct (fileToMap _ _ _ _ _ _ _) as [[| | |m']|].
      * injection R as <- <-. reflexivity.
      * eapply K; [reflexivity|reflexivity|]. intros _. repeat split; assumption.
      * eapply K; [reflexivity|reflexivity|]. intros X. exfalso. apply X. exact I.
      * eapply K; [reflexivity|reflexivity|]. intros X. exfalso. apply X. exact I.
      * discriminate.
Qed.

(** ** Property *)
(** Until a load replaces the map, or meets a file of unknown type, the server behaves as expected (including loads that fail otherwise, and up to the end of the program). *)
Theorem C71_one_map_partial : forall fuel ops m d ans, answers fuel ops m d = Some ans ->
  (forall k, (k + 1 < length ans)%nat -> ~ replaced (nth k ans VEnded)) -> expected fuel ops m d = Some ans.
Proof.
  intros fuel ops m d ans R H. unfold answers in R. destruct (vrun _ _ _ _ _ _ _ ops _) as [[l t]|] eqn:E; [|discriminate]. injection R as <-.
  exact (one_map fuel ops m d (new_server m d) l t ltac:(repeat split) E H).
Qed.
(** The maps after each of a sequence of changes *)
Fixpoint successive (ops : list vop) (m : any) : list any :=
  match ops with
  | [] => []
  | VMeasure f :: ops' => f m :: successive ops' (f m)
  | _ :: ops' => successive ops' m
  end.
Definition apart (m0 m : any) (d : fs) (s : server (V := V)) : Prop :=
  exists k, s_ptr s = Some k /\ k <> s_pipe s /\ s_heap s (s_pipe s) = m0 /\ s_heap s k = m /\ s_files s = d.
Lemma two_maps fuel ops : forall m0 m d s ans st, apart m0 m d s -> forallb (fun o => negb (is_load o)) ops = true ->
  vrun N enc dec clear threshold allow_reset fuel ops s = Some (ans, st) -> ~ In VEnded ans ->
  filter is_published ans = map VPublished (successive ops m0) /\
  expected fuel (filter (fun o => negb (is_measure o)) ops) m d = Some (filter (fun x => negb (is_published x)) ans).
Proof.
  induction ops as [|o ops IH]; intros m0 m d s ans st A L R E; cbn [vrun] in R.
  - injection R as <- <-. split; reflexivity.
  - destruct A as (k & A1 & A2 & A3 & A4 & A5). cbn [forallb] in L. apply andb_prop in L. destruct L as [L0 L].
    destruct o as [f| |p e|now p r]; cbn [vstep is_load negb] in *; [| | |discriminate].
    + destruct (vrun _ _ _ _ _ _ _ ops _) as [[l t]|] eqn:ER; [|discriminate]. injection R as <- <-.
      match type of ER with vrun _ _ _ _ _ _ _ _ ?s' = _ => destruct (IH (f m0) m d s' l t) with (2 := L) (3 := ER) as [P1 P2] end.
      * exists k. cbn. rewrite h_get, h_other by exact A2. rewrite A3. repeat split; assumption.
      * intros K. apply E. right. exact K.
      * cbn [filter is_published is_measure negb successive map]. rewrite P1, A3. split; [reflexivity|exact P2].
    + destruct allow_reset eqn:AR.
      * rewrite A1 in R. destruct (vrun _ _ _ _ _ _ _ ops _) as [[l t]|] eqn:ER; [|discriminate]. injection R as <- <-.
        match type of ER with vrun _ _ _ _ _ _ _ _ ?s' = _ => destruct (IH m0 (clear m) d s' l t) with (2 := L) (3 := ER) as [P1 P2] end.
        -- exists k. cbn. rewrite h_get, h_other by (intros K; apply A2; symmetry; exact K). rewrite A4. repeat split; assumption.
        -- intros K. apply E. right. exact K.
        -- cbn [filter is_published is_measure negb successive map expected expected_step]. rewrite AR, P2. split; [exact P1|reflexivity].
      * destruct (vrun _ _ _ _ _ _ _ ops _) as [[l t]|] eqn:ER; [|discriminate]. injection R as <- <-.
        match type of ER with vrun _ _ _ _ _ _ _ _ ?s' = _ => destruct (IH m0 m d s' l t) with (2 := L) (3 := ER) as [P1 P2] end.
        -- exists k. repeat split; assumption.
        -- intros K. apply E. right. exact K.
        -- cbn [filter is_published is_measure negb successive map expected expected_step]. rewrite AR, P2. split; [exact P1|reflexivity].
    + rewrite A1, A4, A5 in R. cbn [filter is_measure negb successive expected expected_step]. destruct (mapToFile _ _ _ _ _ _ _) as [[b d'|d']|] eqn:EM; [| |discriminate].
      * destruct (vrun _ _ _ _ _ _ _ ops _) as [[l t]|] eqn:ER; [|discriminate]. injection R as <- <-.
        match type of ER with vrun _ _ _ _ _ _ _ _ ?s' = _ => destruct (IH m0 (threshold m) d' s' l t) with (2 := L) (3 := ER) as [P1 P2] end.
        -- exists k. cbn. rewrite h_get, h_other by (intros K; apply A2; symmetry; exact K). repeat split; assumption.
        -- intros K. apply E. right. exact K.
        -- rewrite P2. split; [exact P1|reflexivity].
      * injection R as <- <-. exfalso. apply E. left. reflexivity.
Qed.
(** Once a map has been loaded, there are two: the services act on the loaded map, into which no measurement is ever integrated, and the measurements go on changing the old
    map, which goes on being published. *)
Theorem C71_after_load : forall fuel now p r ops m0 m d ans,
  answers fuel (VLoad now p r :: ops) m0 d = Some (VLoaded (LdTrue m) :: ans) -> forallb (fun o => negb (is_load o)) ops = true -> ~ In VEnded ans ->
  filter is_published ans = map VPublished (successive ops m0) /\
  expected fuel (filter (fun o => negb (is_measure o)) ops) m d = Some (filter (fun x => negb (is_published x)) ans).
Proof.
  intros fuel now p r ops m0 m d ans R L E. unfold answers in R. cbn [vrun vstep new_server s_files] in R.
  destruct (fileToMap N dec fuel now p r d) as [[| | |m']|]; try discriminate R.
  1, 2: destruct (vrun _ _ _ _ _ _ _ ops _) as [[l t]|]; discriminate R.
  destruct (vrun _ _ _ _ _ _ _ ops _) as [[l t]|] eqn:ER; [|discriminate]. cbn [option_map fst] in R. injection R as <- <-.
  refine (two_maps fuel ops m0 m' d _ l t _ L ER E). exists 1%nat. cbn. repeat split. discriminate.
Qed.
End SPEC.

(** ** Examples *)
(** A measurement after which the map consists of the two blocks of [fx_map 1] *)
Definition srv_add (a : anymap (V := Qc)) : anymap := fx_map 1.
Definition srv_clear (a : anymap (V := Qc)) : anymap := match a with AnyHB w C m => AnyHB w C [] | _ => a end.
Definition srv_thr (a : anymap (V := Qc)) : anymap := a.
Definition blocks_of (x : vans (V := Qc)) : Z := match x with VPublished (AnyHB _ _ m) | VLoaded (LdTrue (AnyHB _ _ m)) => Z.of_nat (length m) | VAnswer b => if b then -1 else -2
  | VLoaded LdNull => -3 | VLoaded LdKept => -4 | _ => -5 end.
Definition srv_run (ops : list (vop (V := Qc))) (d : fs) : option (list Z) := option_map (map blocks_of) (answers qn fx_enc fx_dec srv_clear srv_thr true 100 ops (fx_map 0) d).
Definition srv_exp (ops : list (vop (V := Qc))) (d : fs) : option (list Z) := option_map (map blocks_of) (expected qn fx_enc fx_dec srv_clear srv_thr true 100 ops (fx_map 0) d).
(** A load that fails, measurements, a save, a reset *)
Example C71_example : srv_run [VMeasure srv_add; VLoad 7 1 re_ok; VSave 2 we_ok; VReset; VMeasure (fun m => m)] no_files = Some [2; -4; -1; -1; 0] /\
  srv_exp [VMeasure srv_add; VLoad 7 1 re_ok; VSave 2 we_ok; VReset; VMeasure (fun m => m)] no_files = Some [2; -4; -1; -1; 0].
Proof. split; vm_compute; reflexivity. Qed.
(** After a map (here an empty one) has been loaded, the measurement is not part of the map that is saved: it is missing when the map is loaded again. And resetting
    the map does not reset what is published. *)
Theorem C71_loaded_map_is_not_updated_refuted : exists ops d,
  srv_run ops d = Some [-1; 0; 2; -1; 0; -1; 2] /\ srv_exp ops d = Some [-1; 0; 2; -1; 2; -1; 0].
Proof.
  exists [VSave 1 we_ok; VLoad 7 1 re_ok; VMeasure srv_add; VSave 2 we_ok; VLoad 7 2 re_ok; VReset; VMeasure (fun m => m)], no_files. split; vm_compute; reflexivity.
Qed.
(** An attempt to load a file that is not a map (here an empty one) answers false, but the server has lost its map: it cannot be saved any more, and is not cleared by a reset
    that answers true. *)
Theorem C71_failed_load_loses_map_refuted : exists ops d,
  srv_run ops d = Some [2; -3; -2; -1; 2] /\ srv_exp ops d = Some [2; -3; -1; -1; 0].
Proof.
  exists [VMeasure srv_add; VLoad 7 1 re_ok; VSave 2 we_ok; VReset; VMeasure (fun m => m)], (fun p => if p =? 1 then Some [] else None). split; vm_compute; reflexivity.
Qed.

Print Assumptions C71_one_map_partial.
Print Assumptions C71_after_load.
Print Assumptions C71_loaded_map_is_not_updated_refuted.
Print Assumptions C71_failed_load_loses_map_refuted.
