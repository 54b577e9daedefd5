(** Proofs about Pauli and PauliMonomial. *)
From Coq Require Import List Arith ZArith QArith Qcanon Bool Lia Permutation Ring Setoid Sorted.
From Verif Require Import Py StarRing Matrix GaussQ PauliSpec PauliModel PauliSem.
Import ListNotations.
Local Open Scope nat_scope.

Add Ring gq_ring_inst : gq_ring.

Definition valid (p : pauli) : Prop := p_gamma p <= 3.

Lemma Pauli_init_int a g c : g <= 3 ->
  Pauli_init (Z.of_nat a) (GInt (Z.of_nat g)) (CNum c) =
  Ok {| p_alpha := a; p_gamma := g; p_coeff := c |}.
Proof.
  intros Hg. unfold Pauli_init.
  replace (Z.of_nat a <? 0)%Z with false by (symmetry; apply Z.ltb_ge; lia).
  destruct g as [|[|[|[|g]]]]; try lia; simpl; rewrite ?Nat2Z.id; auto.
Qed.

Lemma valid_constructible p : constructible p <-> valid p.
Proof.
  split.
  - intros (a & g & c & H). unfold Pauli_init in H. unfold valid.
    destruct (a <? 0)%Z; [discriminate|].
    destruct g as [z|s|]; destruct c as [c|z'|]; try discriminate.
    + destruct (existsb _ _) eqn:E; [|discriminate].
      injection H as <-. cbn [p_gamma].
      unfold pauli_idx_str2int_map in E; simpl in E.
      rewrite !orb_true_iff, !Z.eqb_eq in E. lia.
    + unfold str2int, pauli_idx_str2int_map in H. simpl in H.
      repeat (match type of H with context [if ?b then _ else _] => destruct b end;
              [injection H as <-; simpl; lia|]). discriminate.
  - intros H. destruct p as [a g c]. exists (Z.of_nat a), (GInt (Z.of_nat g)), (CNum c).
    apply Pauli_init_int; auto.
Qed.

(** ** Pauli products *)

Definition pm (p q : pauli) : pauli :=
  {| p_alpha := p_alpha p; p_gamma := gidx (p_gamma p) (p_gamma q);
     p_coeff := gmul (gphase (p_gamma p) (p_gamma q)) (gmul (p_coeff p) (p_coeff q)) |}.

Lemma levi_vals :
  levicevita 1 2 3 = g1 /\ levicevita 2 3 1 = g1 /\ levicevita 3 1 2 = g1 /\
  levicevita 2 1 3 = gopp g1 /\ levicevita 3 2 1 = gopp g1 /\ levicevita 1 3 2 = gopp g1.
Proof. repeat split; apply gq_eq; apply Qc_is_canon; reflexivity. Qed.

Lemma Pauli_mul_ok p q : valid p -> valid q -> p_alpha p = p_alpha q -> Pauli_mul p q = Ok (pm p q).
Proof.
  destruct p as [a g c], q as [b h d]. unfold valid; cbn [p_gamma p_alpha]. intros Hg Hh <-.
  destruct levi_vals as (L1 & L2 & L3 & L4 & L5 & L6).
  unfold Pauli_mul, pm. cbn [p_gamma p_alpha p_coeff]. rewrite Nat.eqb_refl. cbn [negb].
  destruct g as [|[|[|[|g]]]]; try lia; destruct h as [|[|[|[|h]]]]; try lia;
    cbn [Nat.eqb filter mem existsb orb negb];
    match goal with |- Pauli_init (Z.of_nat ?a) (GInt ?g) ?c = _ =>
      first [ rewrite (Pauli_init_int a 0) by lia
            | rewrite Pauli_init_int by lia ] end;
    f_equal; f_equal; cbn [Z.of_nat Pos.of_succ_nat Pos.succ];
    rewrite ?L1, ?L2, ?L3, ?L4, ?L5, ?L6;
    cbn [gphase k1 ki kopp GaussQ]; ring.
Qed.

Lemma pm_alpha p q : p_alpha (pm p q) = p_alpha p.
Proof. reflexivity. Qed.
Lemma pm_valid p q : valid p -> valid q -> valid (pm p q).
Proof. unfold valid; simpl; intros; apply gidx_le; auto. Qed.

Lemma pm_mat p q : valid p -> valid q ->
  meq 2 (pauli_mat (pm p q)) (mmul 2 (pauli_mat p) (pauli_mat q)).
Proof.
  intros Hp Hq. unfold pauli_mat. rewrite mmul_scale_l, mmul_scale_r, sigma_mul by auto.
  intros i j _ _. unfold mscale; simpl. ring.
Qed.

Lemma Pauli_mul_spec p q : constructible p -> constructible q ->
  (p_alpha p = p_alpha q ->
     exists r, Pauli_mul p q = Ok r /\ constructible r /\ p_alpha r = p_alpha p /\
               meq 2 (pauli_mat r) (mmul 2 (pauli_mat p) (pauli_mat q))) /\
  (p_alpha p <> p_alpha q -> Pauli_mul p q = Err AssertionError).
Proof.
  intros Hp Hq. apply valid_constructible in Hp, Hq. split.
  - intros E. exists (pm p q). repeat split.
    + apply Pauli_mul_ok; auto.
    + apply valid_constructible, pm_valid; auto.
    + apply pm_mat; auto.
  - intros E. unfold Pauli_mul. apply Nat.eqb_neq in E. rewrite E. reflexivity.
Qed.

(** ** Sorting *)

Lemma insert_perm p l : Permutation (insert_alpha p l) (p :: l).
Proof.
  induction l as [|q l IH]; simpl; auto.
  destruct (Nat.leb _ _); auto.
  rewrite IH. apply perm_swap.
Qed.

Lemma sort_perm l : Permutation (sort_alpha l) l.
Proof.
  induction l as [|p l IH]; simpl; auto.
  rewrite insert_perm. auto.
Qed.

Definition ale (p q : pauli) := p_alpha p <= p_alpha q.

Lemma insert_sorted p l : StronglySorted ale l -> StronglySorted ale (insert_alpha p l).
Proof.
  induction 1 as [|q l Hs IH Hf]; simpl.
  - repeat constructor.
  - destruct (Nat.leb_spec (p_alpha p) (p_alpha q)).
    + constructor; [constructor; auto|]. constructor; [auto|].
      eapply Forall_impl; [|exact Hf]. unfold ale; intros; lia.
    + constructor; auto.
      rewrite Forall_forall in Hf |- *. intros x Hx.
      apply (Permutation_in _ (insert_perm p l)) in Hx. destruct Hx as [<-|Hx].
      * unfold ale; lia.
      * auto.
Qed.

Lemma sort_sorted l : StronglySorted ale (sort_alpha l).
Proof. induction l; simpl; [constructor|apply insert_sorted; auto]. Qed.

Definition sites (l : list pauli) := map p_alpha l.

Lemma strict_sites l : StronglySorted ale l -> NoDup (sites l) -> StronglySorted lt (sites l).
Proof.
  induction 1 as [|q l Hs IH Hf]; simpl; intros Hn; constructor.
  - apply IH. inversion Hn; auto.
  - inversion Hn as [|x y Hni _]; subst. rewrite Forall_forall in Hf |- *.
    intros x Hx. unfold sites in Hx. apply in_map_iff in Hx. destruct Hx as (p & <- & Hp).
    pose proof (Hf p Hp) as Hle. unfold ale in Hle.
    assert (p_alpha q <> p_alpha p); [|lia].
    intros E. apply Hni. rewrite E. apply in_map; auto.
Qed.

(** Two strictly sorted lists with the same elements are equal. *)
Lemma sorted_unique l l' : StronglySorted lt (sites l) -> StronglySorted lt (sites l') ->
  Permutation l l' -> l = l'.
Proof.
  revert l'; induction l as [|p l IH]; intros l' Hs Hs' HP.
  - apply Permutation_nil in HP; auto.
  - destruct l' as [|q l']. { apply Permutation_sym, Permutation_nil in HP; discriminate. }
    simpl in Hs, Hs'. apply StronglySorted_inv in Hs. apply StronglySorted_inv in Hs'.
    destruct Hs as [Hs Hf], Hs' as [Hs' Hf']. rewrite Forall_forall in Hf, Hf'.
    assert (p = q).
    { assert (H1 : In p (q :: l')) by (apply (Permutation_in _ HP); left; auto).
      assert (H2 : In q (p :: l)) by (apply (Permutation_in _ (Permutation_sym HP)); left; auto).
      destruct H1 as [H1|H1]; auto. destruct H2 as [H2|H2]; auto.
      pose proof (Hf (p_alpha q) (in_map p_alpha _ _ H2)).
      pose proof (Hf' (p_alpha p) (in_map p_alpha _ _ H1)). lia. }
    subst q. f_equal. apply IH; auto. eapply Permutation_cons_inv; eauto.
Qed.

Lemma nodup_length_iff (l : list nat) :
  length (nodup Nat.eq_dec l) = length l <-> NoDup l.
Proof.
  split; intros H.
  - apply NoDup_incl_NoDup with (l := nodup Nat.eq_dec l).
    + apply NoDup_nodup.
    + lia.
    + intros x Hx; apply nodup_In in Hx; auto.
  - rewrite nodup_fixed_point; auto.
Qed.

Lemma gprod_kprod l : gprod l = kprod (fun c => c) l.
Proof.
  unfold gprod. assert (H : forall a, fold_left gmul l a = gmul a (kprod (fun c => c) l)).
  { induction l as [|c l IH]; intros a; simpl; [ring|]. rewrite IH. ring. }
  rewrite H. ring.
Qed.

Lemma gprod_coeffs ps : gprod (map p_coeff ps) = kprod p_coeff ps.
Proof. rewrite gprod_kprod, kprod_map. reflexivity. Qed.

Definition mk_mono (l : list pauli) : mono :=
  {| m_locs := sites l; m_paulis := l; m_coeff := kprod p_coeff l |}.

Lemma mono_init_ok ps : NoDup (sites ps) -> mono_init ps = Ok (mk_mono (sort_alpha ps)).
Proof.
  intros H. unfold mono_init.
  assert (E : length (nodup Nat.eq_dec (map p_alpha (sort_alpha ps))) = length (sort_alpha ps)).
  { transitivity (length (map p_alpha (sort_alpha ps))); [|apply map_length].
    apply nodup_length_iff.
    eapply Permutation_NoDup; [|exact H]. apply Permutation_map, Permutation_sym, sort_perm. }
  rewrite E, Nat.eqb_refl, gprod_coeffs. reflexivity.
Qed.

Lemma mono_init_err ps : ~ NoDup (sites ps) -> mono_init ps = Err AssertionError.
Proof.
  intros H. unfold mono_init.
  destruct (Nat.eqb_spec (length (nodup Nat.eq_dec (map p_alpha (sort_alpha ps))))
                         (length (sort_alpha ps))) as [E|E]; auto.
  exfalso; apply H. rewrite <- (map_length p_alpha) in E. apply nodup_length_iff in E.
  eapply Permutation_NoDup; [|exact E]. apply Permutation_map, sort_perm.
Qed.

Lemma sort_alpha_perm ps ps' : NoDup (sites ps) -> Permutation ps ps' ->
  sort_alpha ps = sort_alpha ps'.
Proof.
  intros Hn HP.
  assert (Hn' : NoDup (sites ps')).
  { eapply Permutation_NoDup; [apply Permutation_map; exact HP|]. auto. }
  apply sorted_unique.
  - apply strict_sites; [apply sort_sorted|].
    eapply Permutation_NoDup; [|exact Hn]. apply Permutation_map, Permutation_sym, sort_perm.
  - apply strict_sites; [apply sort_sorted|].
    eapply Permutation_NoDup; [|exact Hn']. apply Permutation_map, Permutation_sym, sort_perm.
  - rewrite !sort_perm. auto.
Qed.

Lemma mono_init_perm ps ps' : Permutation ps ps' -> mono_init ps = mono_init ps'.
Proof.
  intros HP. destruct (ListDec.NoDup_dec Nat.eq_dec (sites ps)) as [H|H].
  - assert (H' : NoDup (sites ps')).
    { eapply Permutation_NoDup; [apply Permutation_map; exact HP|]. auto. }
    rewrite !mono_init_ok by auto. rewrite (sort_alpha_perm ps ps'); auto.
  - rewrite !mono_init_err; auto. intros H'. apply H.
    eapply Permutation_NoDup; [apply Permutation_map, Permutation_sym; exact HP|]. auto.
Qed.

Lemma mono_init_spec ps :
  (NoDup (map p_alpha ps) ->
     exists m, mono_init ps = Ok m /\ Permutation (m_paulis m) ps /\
       StronglySorted lt (map p_alpha (m_paulis m)) /\
       m_locs m = map p_alpha (m_paulis m) /\
       m_coeff m = fold_right (fun p c => gmul (p_coeff p) c) g1 ps) /\
  (~ NoDup (map p_alpha ps) -> mono_init ps = Err AssertionError) /\
  (forall ps', Permutation ps ps' -> mono_init ps' = mono_init ps).
Proof.
  repeat split.
  - intros H. exists (mk_mono (sort_alpha ps)). split; [apply mono_init_ok; auto|].
    split; [apply sort_perm|]. split.
    { apply strict_sites; [apply sort_sorted|].
      eapply Permutation_NoDup; [|exact H]. apply Permutation_map, Permutation_sym, sort_perm. }
    split; [reflexivity|]. simpl. rewrite (kprod_perm _ _ _ (sort_perm ps)). reflexivity.
  - apply mono_init_err.
  - intros ps' HP. symmetry; apply mono_init_perm; auto.
Qed.

(** ** Well-formed monomials: what [fresh] amounts to *)

Definition wf (m : mono) : Prop :=
  m_locs m = sites (m_paulis m) /\ StronglySorted lt (sites (m_paulis m)) /\
  Forall valid (m_paulis m).
Definition wfc (m : mono) : Prop := wf m /\ m_coeff m = kprod p_coeff (m_paulis m).

Lemma wfc_mk m : wfc m -> m = mk_mono (m_paulis m).
Proof. destruct m as [a b c]; intros ((H1 & H2 & H3) & H4); simpl in *; subst; auto. Qed.

Lemma ss_lt_nodup l : StronglySorted lt l -> NoDup l.
Proof.
  induction 1 as [|x l Hs IH Hf]; constructor; auto.
  intros Hx. rewrite Forall_forall in Hf. apply Hf in Hx. lia.
Qed.

Lemma fresh_wfc m : fresh m <-> wfc m.
Proof.
  split.
  - intros (ps & Hv & H).
    assert (Hn : NoDup (sites ps)).
    { destruct (ListDec.NoDup_dec Nat.eq_dec (sites ps)) as [Hn|Hn]; auto.
      rewrite mono_init_err in H by auto; discriminate. }
    rewrite mono_init_ok in H by auto. injection H as <-.
    split; [split; [reflexivity|split]|reflexivity]; cbn [m_paulis mk_mono].
    + apply strict_sites; [apply sort_sorted|].
      eapply Permutation_NoDup; [|exact Hn]. apply Permutation_map, Permutation_sym, sort_perm.
    + rewrite Forall_forall in *. intros p Hp. apply valid_constructible, Hv.
      apply (Permutation_in _ (sort_perm ps)); auto.
  - intros H. exists (m_paulis m). destruct H as ((H1 & H2 & H3) & H4). split.
    + eapply Forall_impl; [|exact H3]. intros; apply valid_constructible; auto.
    + rewrite mono_init_ok by (apply ss_lt_nodup; auto).
      destruct m as [l ps c]; simpl in *; subst. f_equal.
      assert (E : sort_alpha ps = ps).
      { apply sorted_unique; auto; [|apply sort_perm].
        apply strict_sites; [apply sort_sorted|].
        eapply Permutation_NoDup; [|apply ss_lt_nodup; exact H2].
        apply Permutation_map, Permutation_sym, sort_perm. }
      rewrite E. reflexivity.
Qed.

(** ** Looking up the factor on a site *)

Definition look (l : list pauli) (s : nat) : option pauli :=
  find (fun p => Nat.eqb (p_alpha p) s) l.

Lemma look_some l s p : look l s = Some p -> In p l /\ p_alpha p = s.
Proof. unfold look; intros H; apply find_some in H; rewrite Nat.eqb_eq in H; tauto. Qed.

Lemma look_none l s : look l s = None <-> ~ In s (sites l).
Proof.
  unfold look; split.
  - intros H Hi. unfold sites in Hi. apply in_map_iff in Hi. destruct Hi as (p & E & Hp).
    apply (find_none _ _ H) in Hp. apply Nat.eqb_neq in Hp. auto.
  - intros H. destruct (find _ l) eqn:E; auto.
    apply find_some in E. destruct E as [E1 E2]. apply Nat.eqb_eq in E2. exfalso; apply H.
    subst; apply in_map; auto.
Qed.

Lemma look_in l p : NoDup (sites l) -> In p l -> look l (p_alpha p) = Some p.
Proof.
  induction l as [|q l IH]; intros Hn Hp; [inversion Hp|].
  unfold look; simpl. inversion Hn as [|x y Hni Hn']; subst.
  destruct Hp as [->|Hp].
  - rewrite Nat.eqb_refl; auto.
  - destruct (Nat.eqb_spec (p_alpha q) (p_alpha p)) as [E|E].
    + exfalso; apply Hni. rewrite E. apply in_map; auto.
    + apply IH; auto.
Qed.

Lemma look_perm l l' s : NoDup (sites l) -> Permutation l l' -> look l s = look l' s.
Proof.
  intros Hn HP.
  assert (Hn' : NoDup (sites l')).
  { eapply Permutation_NoDup; [apply Permutation_map; exact HP|auto]. }
  destruct (look l s) as [p|] eqn:E; symmetry.
  - apply look_some in E. destruct E as [Hp <-]. apply look_in; auto.
    apply (Permutation_in _ HP); auto.
  - apply look_none. apply look_none in E. intros H; apply E.
    apply (Permutation_in (l := sites l')); auto. apply Permutation_map, Permutation_sym; auto.
Qed.

Lemma list_index_look l i : NoDup (sites l) ->
  (do k <- list_index (sites l) i; match nth_error l k with Some p => Ok p | None => Err IndexError end)
  = match look l i with Some p => Ok p | None => Err ValueError end.
Proof.
  intros _. induction l as [|p l IH]; simpl; auto.
  unfold look; simpl. destruct (Nat.eqb_spec (p_alpha p) i); simpl; auto.
  fold (look l i). rewrite <- IH.
  destruct (list_index (sites l) i) eqn:E; simpl; auto.
Qed.

Lemma mono_at_look m i : wf m ->
  mono_at m i = match look (m_paulis m) i with Some p => Ok p | None => Err ValueError end.
Proof.
  intros (H1 & H2 & H3). unfold mono_at, mono_getitem. rewrite H1.
  apply list_index_look. apply ss_lt_nodup; auto.
Qed.

(** factor of the product on site [i] *)
Definition combine_at (a b : list pauli) (i : nat) : pauli :=
  match look a i, look b i with
  | Some p, Some q => pm p q
  | Some p, None => p
  | None, Some q => q
  | None, None => {| p_alpha := i; p_gamma := 0; p_coeff := g1 |}
  end.

Lemma combine_alpha a b i : p_alpha (combine_at a b i) = i.
Proof.
  unfold combine_at. destruct (look a i) as [p|] eqn:E.
  - apply look_some in E. destruct (look b i); simpl; tauto.
  - destruct (look b i) as [q|] eqn:E2; auto. apply look_some in E2; tauto.
Qed.

Lemma look_valid l i p : Forall valid l -> look l i = Some p -> valid p.
Proof. intros H E. apply look_some in E. rewrite Forall_forall in H. apply H; tauto. Qed.

Lemma combine_valid a b i : Forall valid a -> Forall valid b -> valid (combine_at a b i).
Proof.
  intros Ha Hb. unfold combine_at.
  destruct (look a i) eqn:E1; destruct (look b i) eqn:E2.
  - apply pm_valid; [apply (look_valid a i)|apply (look_valid b i)]; auto.
  - apply (look_valid a i); auto.
  - apply (look_valid b i); auto.
  - unfold valid; simpl; lia.
Qed.

Lemma Pauli_copy_ok p : valid p -> Pauli_copy p = Ok p.
Proof. intros H. unfold Pauli_copy. rewrite Pauli_init_int by auto. destruct p; auto. Qed.

(** the sites of the product in the order in which they are built *)
Definition union_sites (a b : list pauli) : list nat :=
  nodup Nat.eq_dec (sites a ++ sites b).

Lemma mono_mul_ok ord a b : reorders ord -> wf a -> wf b ->
  mono_mul ord a b =
  Ok (mk_mono (sort_alpha (map (combine_at (m_paulis a) (m_paulis b))
                               (union_sites (m_paulis a) (m_paulis b))))).
Proof.
  intros Hord Ha Hb. unfold mono_mul.
  pose proof Ha as (La & Sa & Va). pose proof Hb as (Lb & Sb & Vb).
  rewrite La, Lb.
  rewrite !nodup_fixed_point by (apply ss_lt_nodup; auto).
  set (A := sites (m_paulis a)) in *. set (B := sites (m_paulis b)) in *.
  set (com := filter (fun i => mem i B) A).
  set (au := filter (fun i => negb (mem i com)) A).
  set (bu := filter (fun i => negb (mem i com)) B).
  set (F := combine_at (m_paulis a) (m_paulis b)).
  assert (HA : forall i, In i A -> exists p, look (m_paulis a) i = Some p).
  { intros i Hi. destruct (look (m_paulis a) i) eqn:E; eauto. apply look_none in E. contradiction. }
  assert (HB : forall i, In i B -> exists p, look (m_paulis b) i = Some p).
  { intros i Hi. destruct (look (m_paulis b) i) eqn:E; eauto. apply look_none in E. contradiction. }
  assert (Hcom : forall i, In i com <-> In i A /\ In i B).
  { intros i. unfold com. rewrite filter_In, mem_In. tauto. }
  assert (Hau : forall i, In i au <-> In i A /\ ~ In i B).
  { intros i. unfold au. rewrite filter_In, negb_true_iff, mem_nIn, Hcom. tauto. }
  assert (Hbu : forall i, In i bu <-> In i B /\ ~ In i A).
  { intros i. unfold bu. rewrite filter_In, negb_true_iff, mem_nIn, Hcom. tauto. }
  rewrite (mapM_ok _ F (ord com)).
  2: { intros i Hi. apply (Permutation_in _ (Hord com)), Hcom in Hi. destruct Hi as [Hi1 Hi2].
       rewrite !mono_at_look by auto.
       destruct (HA i Hi1) as [p Ep], (HB i Hi2) as [q Eq]. rewrite Ep, Eq; simpl.
       unfold F, combine_at. rewrite Ep, Eq. apply Pauli_mul_ok.
       - apply (look_valid _ _ _ Va Ep).
       - apply (look_valid _ _ _ Vb Eq).
       - apply look_some in Ep, Eq. destruct Ep, Eq; congruence. }
  cbn [bind].
  rewrite (mapM_ok _ F (ord au)).
  2: { intros i Hi. apply (Permutation_in _ (Hord au)), Hau in Hi. destruct Hi as [Hi1 Hi2].
       rewrite mono_at_look by auto. destruct (HA i Hi1) as [p Ep].
       apply look_none in Hi2. rewrite Ep; simpl.
       unfold F, combine_at. rewrite Ep, Hi2. apply Pauli_copy_ok. apply (look_valid _ _ _ Va Ep). }
  cbn [bind].
  rewrite (mapM_ok _ F (ord bu)).
  2: { intros i Hi. apply (Permutation_in _ (Hord bu)), Hbu in Hi. destruct Hi as [Hi1 Hi2].
       rewrite mono_at_look by auto. destruct (HB i Hi1) as [p Ep].
       apply look_none in Hi2. rewrite Ep; simpl.
       unfold F, combine_at. rewrite Ep, Hi2. apply Pauli_copy_ok. apply (look_valid _ _ _ Vb Ep). }
  cbn [bind]. rewrite <- !map_app.
  assert (HP : Permutation (union_sites (m_paulis a) (m_paulis b)) (ord com ++ ord au ++ ord bu)).
  { rewrite (Hord com), (Hord au), (Hord bu).
    apply NoDup_Permutation.
    - apply NoDup_nodup.
    - assert (NA : NoDup A) by (apply ss_lt_nodup; auto).
      assert (NB : NoDup B) by (apply ss_lt_nodup; auto).
      apply NoDup_app_intro; [apply filter_NoDup; auto| |].
      + apply NoDup_app_intro; [apply filter_NoDup; auto|apply filter_NoDup; auto|].
        intros x Hx. rewrite Hau in Hx. rewrite Hbu. tauto.
      + intros x Hx. rewrite Hcom in Hx. rewrite in_app_iff, Hau, Hbu. tauto.
    - intros x. unfold union_sites. rewrite nodup_In, !in_app_iff, Hcom, Hau, Hbu.
      fold A B. destruct (in_dec Nat.eq_dec x A); destruct (in_dec Nat.eq_dec x B); tauto. }
  rewrite <- (mono_init_perm _ _ (Permutation_map F HP)).
  apply mono_init_ok. unfold sites. rewrite map_map.
  rewrite (map_ext _ (fun i => i)) by (intros; apply combine_alpha).
  rewrite map_id. apply NoDup_nodup.
Qed.

Definition prod_paulis (a b : mono) : list pauli :=
  sort_alpha (map (combine_at (m_paulis a) (m_paulis b)) (union_sites (m_paulis a) (m_paulis b))).

Lemma prod_sites_nodup a b :
  NoDup (sites (map (combine_at (m_paulis a) (m_paulis b)) (union_sites (m_paulis a) (m_paulis b)))).
Proof.
  unfold sites. rewrite map_map, (map_ext _ (fun i => i)) by (intros; apply combine_alpha).
  rewrite map_id. apply NoDup_nodup.
Qed.

Lemma prod_wfc a b : wf a -> wf b -> wfc (mk_mono (prod_paulis a b)).
Proof.
  intros (La & Sa & Va) (Lb & Sb & Vb). unfold prod_paulis.
  split; [split; [reflexivity|split]|reflexivity]; cbn [m_paulis mk_mono].
  - apply strict_sites; [apply sort_sorted|].
    eapply Permutation_NoDup; [|apply prod_sites_nodup].
    apply Permutation_map, Permutation_sym, sort_perm.
  - rewrite Forall_forall. intros p Hp. apply (Permutation_in _ (sort_perm _)) in Hp.
    apply in_map_iff in Hp. destruct Hp as (i & <- & _). apply combine_valid; auto.
Qed.

Lemma look_map (F : nat -> pauli) l i : (forall j, p_alpha (F j) = j) ->
  look (map F l) i = if in_dec Nat.eq_dec i l then Some (F i) else None.
Proof.
  intros HF. unfold look. induction l as [|j l IH]; simpl; auto.
  rewrite HF. destruct (Nat.eqb_spec j i) as [->|Hne].
  - destruct (Nat.eq_dec i i); [auto|congruence].
  - rewrite IH. destruct (Nat.eq_dec j i); [congruence|].
    destruct (in_dec Nat.eq_dec i l); auto.
Qed.

Lemma look_prod a b i :
  look (prod_paulis a b) i =
  match look (m_paulis a) i, look (m_paulis b) i with
  | None, None => None
  | _, _ => Some (combine_at (m_paulis a) (m_paulis b) i)
  end.
Proof.
  unfold prod_paulis.
  rewrite (look_perm _ (map (combine_at (m_paulis a) (m_paulis b))
                            (union_sites (m_paulis a) (m_paulis b)))).
  - rewrite look_map by (intros; apply combine_alpha).
    unfold union_sites.
    destruct (in_dec Nat.eq_dec i (nodup Nat.eq_dec (sites (m_paulis a) ++ sites (m_paulis b)))) as [H|H].
    + rewrite nodup_In, in_app_iff in H.
      destruct (look (m_paulis a) i) eqn:E1; auto.
      destruct (look (m_paulis b) i) eqn:E2; auto.
      apply look_none in E1, E2. tauto.
    + rewrite nodup_In, in_app_iff in H.
      assert (E1 : look (m_paulis a) i = None) by (apply look_none; tauto).
      assert (E2 : look (m_paulis b) i = None) by (apply look_none; tauto).
      rewrite E1, E2; auto.
  - eapply Permutation_NoDup; [|apply prod_sites_nodup].
    apply Permutation_map, Permutation_sym, sort_perm.
  - apply sort_perm.
Qed.

(** ** Denotation *)

Definition site_coeff (l : list pauli) (s : nat) : gq :=
  match look l s with Some p => p_coeff p | None => g1 end.
Definition site_mat (l : list pauli) (s : nat) : mat gq :=
  match look l s with Some p => pauli_mat p | None => mid end.

Lemma coeff_sites n l : NoDup (sites l) -> Forall (fun p => p_alpha p < n) l ->
  kprod p_coeff l = kprod (site_coeff l) (seq 0 n).
Proof.
  intros Hn Hb.
  assert (E : kprod p_coeff l = kprod (site_coeff l) (sites l)).
  { unfold sites. rewrite kprod_map. apply kprod_ext. intros p Hp.
    unfold site_coeff. rewrite look_in; auto. }
  rewrite E.
  set (rest := filter (fun s => negb (mem s (sites l))) (seq 0 n)).
  assert (HP : Permutation (seq 0 n) (sites l ++ rest)).
  { apply NoDup_Permutation.
    - apply seq_NoDup.
    - assert (NR : NoDup rest) by (apply filter_NoDup, seq_NoDup).
      assert (D : forall x, In x (sites l) -> ~ In x rest).
      { intros x Hx. unfold rest. rewrite filter_In, negb_true_iff, mem_nIn. tauto. }
      apply NoDup_app_intro; auto.
    - intros x. unfold rest. rewrite in_app_iff, filter_In, negb_true_iff, mem_nIn, in_seq.
      rewrite Forall_forall in Hb. split.
      + intros H. destruct (in_dec Nat.eq_dec x (sites l)); auto.
      + intros [H|H]; [|tauto]. unfold sites in H. apply in_map_iff in H.
        destruct H as (p & <- & Hp). pose proof (Hb p Hp). lia. }
  rewrite (kprod_perm _ _ _ HP), kprod_app.
  rewrite (kprod_1 _ rest).
  - change (@k1 _ GaussQ) with g1. change (@kmul _ GaussQ) with gmul. ring.
  - intros x Hx. unfold rest in Hx. rewrite filter_In, negb_true_iff, mem_nIn in Hx.
    unfold site_coeff. destruct Hx as [_ Hx]. apply look_none in Hx. rewrite Hx. auto.
Qed.

Lemma denote_sites n m : wfc m -> sites_below n m ->
  meq (2 ^ n) (denote n m) (kronl (map (site_mat (m_paulis m)) (seq 0 n))).
Proof.
  intros ((H1 & H2 & H3) & H4) Hb. unfold denote. rewrite H4, (coeff_sites n) by (auto using ss_lt_nodup).
  unfold pword, mono_string. rewrite map_map.
  pose proof (kronl_scale (site_coeff (m_paulis m)) (fun s => sigma (letter_on m s)) (seq 0 n)) as E.
  rewrite seq_length in E. rewrite <- E. clear E.
  pose proof (kronl_ext (fun s => mscale (site_coeff (m_paulis m) s) (sigma (letter_on m s)))
                        (site_mat (m_paulis m)) (seq 0 n)) as E.
  rewrite seq_length in E. apply E. intros s _.
  unfold site_coeff, site_mat, letter_on. change (find _ (m_paulis m)) with (look (m_paulis m) s).
  destruct (look (m_paulis m) s) as [p|]; [reflexivity|].
  intros i j _ _. unfold mscale. simpl. unfold sigma. ring.
Qed.

Lemma prod_below n a b : sites_below n a -> sites_below n b -> sites_below n (mk_mono (prod_paulis a b)).
Proof.
  unfold sites_below; intros Ha Hb. rewrite Forall_forall in *. simpl. intros p Hp.
  apply (Permutation_in _ (sort_perm _)) in Hp. apply in_map_iff in Hp.
  destruct Hp as (i & <- & Hi). rewrite combine_alpha.
  unfold union_sites in Hi. rewrite nodup_In, in_app_iff in Hi.
  unfold sites in Hi. rewrite !in_map_iff in Hi.
  destruct Hi as [(q & <- & Hq)|(q & <- & Hq)]; auto.
Qed.

Lemma site_mat_prod a b s : wf a -> wf b ->
  meq 2 (site_mat (prod_paulis a b) s) (mmul 2 (site_mat (m_paulis a) s) (site_mat (m_paulis b) s)).
Proof.
  intros (La & Sa & Va) (Lb & Sb & Vb). unfold site_mat. rewrite look_prod. unfold combine_at.
  destruct (look (m_paulis a) s) as [p|] eqn:E1; destruct (look (m_paulis b) s) as [q|] eqn:E2.
  - apply pm_mat; [apply (look_valid _ _ _ Va E1)|apply (look_valid _ _ _ Vb E2)].
  - rewrite mmul_1_r; reflexivity.
  - rewrite mmul_1_l; reflexivity.
  - rewrite mmul_1_l; reflexivity.
Qed.

Lemma denote_prod n a b : wfc a -> wfc b -> sites_below n a -> sites_below n b ->
  meq (2 ^ n) (denote n (mk_mono (prod_paulis a b))) (mmul (2 ^ n) (denote n a) (denote n b)).
Proof.
  intros Ha Hb Ba Bb.
  rewrite (denote_sites n a), (denote_sites n b) by auto.
  rewrite denote_sites; [|apply prod_wfc; [apply Ha|apply Hb]|apply prod_below; auto].
  pose proof (kronl_mul (site_mat (m_paulis a)) (site_mat (m_paulis b)) (seq 0 n)) as E.
  rewrite seq_length in E. rewrite E. clear E.
  pose proof (kronl_ext (site_mat (prod_paulis a b))
     (fun x => mmul 2 (site_mat (m_paulis a) x) (site_mat (m_paulis b) x)) (seq 0 n)) as E.
  rewrite seq_length in E. cbn [m_paulis mk_mono]. apply E. intros s _.
  apply site_mat_prod; [apply Ha|apply Hb].
Qed.

Lemma mono_mul_spec ord a b n : reorders ord -> fresh a -> fresh b ->
  sites_below n a -> sites_below n b ->
  exists c, mono_mul ord a b = Ok c /\ sites_below n c /\
    meq (2 ^ n) (denote n c) (mmul (2 ^ n) (denote n a) (denote n b)).
Proof.
  intros Ho Ha Hb Ba Bb. apply fresh_wfc in Ha, Hb. exists (mk_mono (prod_paulis a b)). split.
  - apply mono_mul_ok; auto; [apply Ha|apply Hb].
  - split; [apply prod_below; auto|apply denote_prod; auto].
Qed.

Lemma mono_mul_wf_spec ord a b : reorders ord -> fresh a -> fresh b ->
  exists c, mono_mul ord a b = Ok c /\ fresh c /\
    StronglySorted lt (m_locs c) /\ (forall s, In s (m_locs c) <-> In s (m_locs a) \/ In s (m_locs b)) /\
    m_locs c = map p_alpha (m_paulis c) /\
    m_coeff c = fold_right (fun p x => gmul (p_coeff p) x) g1 (m_paulis c) /\
    (forall ord', reorders ord' -> mono_mul ord' a b = Ok c).
Proof.
  intros Ho Ha Hb. apply fresh_wfc in Ha, Hb. exists (mk_mono (prod_paulis a b)).
  pose proof (prod_wfc a b (proj1 Ha) (proj1 Hb)) as Hc.
  repeat split.
  - apply mono_mul_ok; auto; [apply Ha|apply Hb].
  - apply fresh_wfc; auto.
  - apply Hc.
  - simpl. destruct Ha as ((La & Sa & Va) & _), Hb as ((Lb & Sb & Vb) & _). rewrite La, Lb.
    intros Hs. unfold sites in Hs. apply in_map_iff in Hs. destruct Hs as (p & <- & Hp).
    apply (Permutation_in _ (sort_perm _)) in Hp. apply in_map_iff in Hp.
    destruct Hp as (i & <- & Hi). rewrite combine_alpha.
    unfold union_sites in Hi. rewrite nodup_In, in_app_iff in Hi. auto.
  - simpl. destruct Ha as ((La & Sa & Va) & _), Hb as ((Lb & Sb & Vb) & _). rewrite La, Lb.
    intros Hs. unfold sites. apply in_map_iff.
    exists (combine_at (m_paulis a) (m_paulis b) s). split; [apply combine_alpha|].
    apply (Permutation_in _ (Permutation_sym (sort_perm _))). apply in_map.
    unfold union_sites. rewrite nodup_In, in_app_iff. auto.
  - intros ord' Ho'. apply mono_mul_ok; auto; [apply Ha|apply Hb].
Qed.

(** ** AB and BA *)

Lemma gidx_comm g h : g <= 3 -> h <= 3 -> gidx g h = gidx h g.
Proof. intros Hg Hh; destruct g as [|[|[|[|g]]]]; try lia; destruct h as [|[|[|[|h]]]]; try lia; auto. Qed.

Definition clash (g h : nat) : bool := negb (g =? 0) && negb (h =? 0) && negb (g =? h).
Definition sgn (b : bool) : gq := if b then gopp g1 else g1.

Lemma gphase_comm g h : g <= 3 -> h <= 3 -> gphase g h = gmul (sgn (clash g h)) (gphase h g).
Proof.
  intros Hg Hh; destruct g as [|[|[|[|g]]]]; try lia; destruct h as [|[|[|[|h]]]]; try lia;
    apply gq_eq; apply Qc_is_canon; reflexivity.
Qed.

Lemma letter_prod a b s : wf a -> wf b ->
  letter_on (mk_mono (prod_paulis a b)) s = gidx (letter_on a s) (letter_on b s).
Proof.
  intros (La & Sa & Va) (Lb & Sb & Vb). unfold letter_on. cbn [m_paulis mk_mono].
  change (find (fun p => p_alpha p =? s) ?l) with (look l s).
  rewrite look_prod. unfold combine_at.
  destruct (look (m_paulis a) s) as [p|] eqn:E1; destruct (look (m_paulis b) s) as [q|] eqn:E2; auto.
  apply look_valid in E1; auto. unfold valid in E1. destruct (p_gamma p) as [|[|[|[|?]]]]; simpl; auto; lia.
Qed.

Lemma letter_le m s : Forall valid (m_paulis m) -> letter_on m s <= 3.
Proof.
  intros H. unfold letter_on. change (find _ ?l) with (look l s).
  destruct (look (m_paulis m) s) eqn:E; [|lia]. eapply look_valid in E; eauto.
Qed.

Lemma prod_string_comm n a b : wf a -> wf b ->
  mono_string n (mk_mono (prod_paulis a b)) = mono_string n (mk_mono (prod_paulis b a)).
Proof.
  intros Ha Hb. unfold mono_string. apply map_ext. intros s. rewrite !letter_prod by auto.
  apply gidx_comm; apply letter_le; [apply Ha|apply Hb].
Qed.

Lemma mono_string_le n m : Forall valid (m_paulis m) -> Forall (fun g => g <= 3) (mono_string n m).
Proof.
  intros H. unfold mono_string. rewrite Forall_forall. intros g Hg. apply in_map_iff in Hg.
  destruct Hg as (s & <- & _). apply letter_le; auto.
Qed.

Lemma mono_string_length n m : length (mono_string n m) = n.
Proof. unfold mono_string. rewrite map_length, seq_length. auto. Qed.

Lemma commutator_spec ord a b n : reorders ord -> fresh a -> fresh b ->
  sites_below n a -> sites_below n b ->
  exists c, mono_commutator ord a b = Ok c /\
    meq (2 ^ n) (denote n c) (msub (mmul (2 ^ n) (denote n a) (denote n b))
                                   (mmul (2 ^ n) (denote n b) (denote n a))).
Proof.
  intros Ho Ha Hb Ba Bb. apply fresh_wfc in Ha, Hb. unfold mono_commutator.
  rewrite !mono_mul_ok by (auto; first [apply Ha|apply Hb]). cbn [bind].
  fold (prod_paulis a b) (prod_paulis b a). eexists; split; [reflexivity|].
  rewrite <- !denote_prod by auto. unfold denote. cbn [m_coeff set_coeff mk_mono].
  change (mono_string n (set_coeff (mk_mono (prod_paulis a b))
     (gsub (kprod p_coeff (prod_paulis a b)) (kprod p_coeff (prod_paulis b a)))))
    with (mono_string n (mk_mono (prod_paulis a b))).
  rewrite (prod_string_comm n b a) by (first [apply Ha|apply Hb]).
  intros i j _ _. unfold msub, mscale. simpl. ring.
Qed.

Lemma kprod_sites_prod n a b : wf a -> wf b -> sites_below n a -> sites_below n b ->
  kprod p_coeff (prod_paulis a b) =
  kprod (fun s => gmul (gphase (letter_on a s) (letter_on b s))
                       (gmul (site_coeff (m_paulis a) s) (site_coeff (m_paulis b) s))) (seq 0 n).
Proof.
  intros Ha Hb Ba Bb. pose proof (prod_below n a b Ba Bb) as Hb'.
  destruct (prod_wfc a b Ha Hb) as ((_ & Hs & _) & _).
  rewrite (coeff_sites n); [|apply ss_lt_nodup; auto|exact Hb'].
  apply kprod_ext. intros s _. unfold site_coeff, letter_on. rewrite look_prod.
  unfold combine_at. change (find _ ?l) with (look l s).
  destruct (look (m_paulis a) s) as [p|] eqn:E1; destruct (look (m_paulis b) s) as [q|] eqn:E2.
  - reflexivity.
  - apply look_valid in E1; [|apply Ha]. unfold valid in E1.
    destruct (p_gamma p) as [|[|[|[|?]]]]; simpl; try ring; lia.
  - simpl. ring.
  - simpl. ring.
Qed.

Fixpoint gsgn (n : nat) : gq := match n with 0 => g1 | S k => gmul (gopp g1) (gsgn k) end.

Lemma kprod_sgn (f : nat -> bool) l : kprod (fun s => sgn (f s)) l = gsgn (length (filter f l)).
Proof.
  induction l as [|s l IH]; simpl; auto. rewrite IH.
  destruct (f s); simpl; ring.
Qed.

Lemma swap_coeff n a b : wf a -> wf b -> sites_below n a -> sites_below n b ->
  kprod p_coeff (prod_paulis a b) = gmul (gsgn (clashes n a b)) (kprod p_coeff (prod_paulis b a)).
Proof.
  intros Ha Hb Ba Bb.
  rewrite (kprod_sites_prod n a b), (kprod_sites_prod n b a) by auto.
  unfold clashes. change (fun s => negb (letter_on a s =? 0) && negb (letter_on b s =? 0)
       && negb (letter_on a s =? letter_on b s)) with (fun s => clash (letter_on a s) (letter_on b s)).
  rewrite <- kprod_sgn. rewrite <- (kprod_mul (SR := GaussQ)). apply kprod_ext. intros s _.
  rewrite (gphase_comm (letter_on a s)); [|apply letter_le; apply Ha|apply letter_le; apply Hb].
  simpl. ring.
Qed.

Lemma gsgn_even n : gsgn n = if Nat.even n then g1 else gopp g1.
Proof.
  induction n as [|n IH]; auto. cbn [gsgn]. rewrite IH, Nat.even_succ, <- Nat.negb_even.
  destruct (Nat.even n); simpl; ring.
Qed.

Lemma gneg_fix c : c = gopp c -> c = g0.
Proof.
  intros H. assert (E : gmul (gadd g1 g1) c = g0).
  { replace (gmul (gadd g1 g1) c) with (gadd c c) by ring. rewrite H at 2. ring. }
  apply gmul_integral in E. destruct E as [E|E]; auto.
  exfalso. injection E as E. discriminate E.
Qed.

Lemma kprod_nonzero {A} (f : A -> gq) l : (forall x, In x l -> f x <> g0) -> kprod f l <> g0.
Proof.
  induction l as [|a l IH]; intros H; simpl.
  - intros E. discriminate.
  - intros E. apply gmul_integral in E. destruct E as [E|E].
    + apply (H a); auto. left; auto.
    + apply IH in E; auto. intros; apply H; right; auto.
Qed.

Lemma gphase_nonzero g h : gphase g h <> g0.
Proof.
  destruct g as [|[|[|[|g]]]]; destruct h as [|[|[|[|h]]]]; simpl; discriminate.
Qed.

Lemma gmul_nonzero x y : x <> g0 -> y <> g0 -> gmul x y <> g0.
Proof. intros Hx Hy E; apply gmul_integral in E; tauto. Qed.

Lemma kprod_factor_nonzero {A} (f : A -> gq) l : kprod f l <> g0 -> forall x, In x l -> f x <> g0.
Proof.
  induction l as [|a l IH]; intros H x [].
  - subst. intros E. apply H. simpl. rewrite E. ring.
  - apply IH; auto. intros E; apply H; simpl. rewrite E. ring.
Qed.

Lemma commutes_spec ord a b n : reorders ord -> fresh a -> fresh b ->
  sites_below n a -> sites_below n b ->
  exists r, mono_commutes_with ord a b = Ok r /\
    (r = true <-> meq (2 ^ n) (mmul (2 ^ n) (denote n a) (denote n b))
                              (mmul (2 ^ n) (denote n b) (denote n a))) /\
    (m_coeff a <> g0 -> m_coeff b <> g0 -> (r = true <-> Nat.Even (clashes n a b))).
Proof.
  intros Ho Ha Hb Ba Bb. apply fresh_wfc in Ha, Hb. unfold mono_commutes_with.
  rewrite !mono_mul_ok by (auto; first [apply Ha|apply Hb]). cbn [bind].
  fold (prod_paulis a b) (prod_paulis b a). eexists; split; [reflexivity|].
  rewrite geqb_eq. cbn [m_coeff mk_mono]. split.
  - rewrite <- !denote_prod by auto. unfold denote. cbn [m_coeff mk_mono].
    rewrite (prod_string_comm n b a) by (first [apply Ha|apply Hb]).
    split; intros H.
    + rewrite H. reflexivity.
    + set (w := mono_string n (mk_mono (prod_paulis a b))) in *.
      pose proof (pword_scale_inj w) as E. unfold w at 2 in E. rewrite mono_string_length in E.
      symmetry. apply E; auto. apply mono_string_le.
      apply (prod_wfc a b); [apply Ha|apply Hb].
  - intros Na Nb.
    assert (Hnz : kprod p_coeff (prod_paulis b a) <> g0).
    { rewrite (kprod_sites_prod n b a) by (auto; first [apply Ha|apply Hb]).
      apply kprod_nonzero. intros s _. apply gmul_nonzero; [apply gphase_nonzero|].
      destruct Ha as ((La & Sa & Va) & Ca), Hb as ((Lb & Sb & Vb) & Cb).
      rewrite Ca in Na. rewrite Cb in Nb.
      apply gmul_nonzero; unfold site_coeff.
      - destruct (look (m_paulis b) s) eqn:E; [|discriminate].
        apply look_some in E. apply (kprod_factor_nonzero _ _ Nb); tauto.
      - destruct (look (m_paulis a) s) eqn:E; [|discriminate].
        apply look_some in E. apply (kprod_factor_nonzero _ _ Na); tauto. }
    rewrite (swap_coeff n a b) by (auto; first [apply Ha|apply Hb]).
    rewrite gsgn_even, <- Nat.even_spec.
    destruct (Nat.even (clashes n a b)); split; intros H; auto.
    + ring.
    + exfalso; apply Hnz. apply gneg_fix. rewrite H at 1. ring.
    + discriminate.
Qed.

(** ** to_oranssi *)

Lemma find_filter_site m s : NoDup (sites (m_paulis m)) ->
  find (fun p => p_alpha p =? s) (filter (fun p => negb (p_gamma p =? 0)) (m_paulis m)) =
  match look (m_paulis m) s with
  | Some p => if p_gamma p =? 0 then None else Some p
  | None => None end.
Proof.
  intros Hn. unfold look. induction (m_paulis m) as [|p l IH]; simpl; auto.
  inversion Hn as [|x y Hni Hn']; subst. specialize (IH Hn').
  destruct (p_alpha p =? s) eqn:Es; destruct (p_gamma p =? 0) eqn:Eg; simpl; rewrite ?Es, ?Eg; auto.
  rewrite IH. apply Nat.eqb_eq in Es; subst.
  assert (E : look l (p_alpha p) = None) by (apply look_none; auto).
  unfold look in E. rewrite E. auto.
Qed.
