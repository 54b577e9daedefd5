(** Equality, hashing, ordering, conversion and coefficient bookkeeping of monomials. *)
From Coq Require Import List Arith ZArith QArith Qcanon Bool Lia Permutation Ring Setoid Sorted
  String Ascii Decimal DecimalString DecimalNat.
From Verif Require Import Py StarRing Matrix GaussQ PauliSpec PauliModel PauliSem PauliProofs.
Import ListNotations.
Local Open Scope nat_scope.

Add Ring gq_ring_inst2 : gq_ring.

(** ** Texts *)

Notation la := list_ascii_of_string.

Lemma la_app s t : la (s ++ t)%string = la s ++ la t.
Proof. induction s as [|c s IH]; simpl; auto. rewrite IH; auto. Qed.

Lemma la_inj s t : la s = la t -> s = t.
Proof.
  intros H. rewrite <- (string_of_list_ascii_of_string s), <- (string_of_list_ascii_of_string t).
  rewrite H; auto.
Qed.

Lemma split_uniq {A} (c : A) s1 s2 t1 t2 : ~ In c s1 -> ~ In c s2 ->
  s1 ++ c :: t1 = s2 ++ c :: t2 -> s1 = s2 /\ t1 = t2.
Proof.
  revert s2; induction s1 as [|x s1 IH]; intros [|y s2] H1 H2 E; simpl in *.
  - injection E; auto.
  - injection E; intros; subst. exfalso; auto.
  - injection E; intros; subst. exfalso; auto.
  - injection E as -> E. apply IH in E; auto. destruct E; subst; auto.
Qed.

Definition is_digit (c : ascii) : Prop :=
  In c ["0"; "1"; "2"; "3"; "4"; "5"; "6"; "7"; "8"; "9"]%char.

Lemma uint_digits u : Forall is_digit (la (NilEmpty.string_of_uint u)).
Proof. induction u; simpl; constructor; auto; unfold is_digit; simpl; tauto. Qed.

Lemma show_nat_digits n : Forall is_digit (la (show_nat n)).
Proof. apply uint_digits. Qed.

Lemma show_nat_notin n c : ~ is_digit c -> ~ In c (la (show_nat n)).
Proof.
  intros H Hi. pose proof (show_nat_digits n) as F. rewrite Forall_forall in F. auto.
Qed.

Lemma show_nat_inj n m : show_nat n = show_nat m -> n = m.
Proof.
  unfold show_nat. intros H.
  assert (E : Some (Nat.to_uint n) = Some (Nat.to_uint m)).
  { rewrite <- !NilEmpty.usu, H. auto. }
  injection E as E. apply Unsigned.to_uint_inj; auto.
Qed.

Lemma notdigit_comma : ~ is_digit ","%char.
Proof. unfold is_digit; simpl; intuition discriminate. Qed.
Lemma notdigit_space : ~ is_digit " "%char.
Proof. unfold is_digit; simpl; intuition discriminate. Qed.
Lemma notdigit_paren : ~ is_digit ")"%char.
Proof. unfold is_digit; simpl; intuition discriminate. Qed.

Lemma la_repr p : la (Pauli_repr_nocoeff p) =
  ["S"; "("]%char ++ la (show_nat (p_alpha p)) ++ [","%char] ++ la (show_nat (p_gamma p)) ++ [")"%char].
Proof. unfold Pauli_repr_nocoeff. rewrite !la_app. reflexivity. Qed.

Lemma repr_nospace p : ~ In " "%char (la (Pauli_repr_nocoeff p)).
Proof.
  rewrite la_repr. rewrite !in_app_iff. simpl.
  intros [[H|[H|[]]]|[H|[[H|[]]|[H|[H|[]]]]]]; try discriminate;
    revert H; apply show_nat_notin, notdigit_space.
Qed.

Lemma repr_inj p q : Pauli_repr_nocoeff p = Pauli_repr_nocoeff q ->
  p_alpha p = p_alpha q /\ p_gamma p = p_gamma q.
Proof.
  intros H. apply (f_equal la) in H. rewrite !la_repr in H. simpl in H.
  injection H as H. apply split_uniq in H; try (apply show_nat_notin, notdigit_comma).
  destruct H as [H1 H2]. split.
  - apply show_nat_inj, la_inj; auto.
  - change (la (show_nat (p_gamma p)) ++ ")"%char :: [] =
            la (show_nat (p_gamma q)) ++ ")"%char :: []) in H2.
    apply split_uniq in H2; try (apply show_nat_notin, notdigit_paren).
    apply show_nat_inj, la_inj; tauto.
Qed.

Lemma repr_eq p q : p_alpha p = p_alpha q -> p_gamma p = p_gamma q ->
  Pauli_repr_nocoeff p = Pauli_repr_nocoeff q.
Proof. unfold Pauli_repr_nocoeff; intros -> ->; auto. Qed.

Lemma repr_nonempty p : la (Pauli_repr_nocoeff p) <> [].
Proof. rewrite la_repr; discriminate. Qed.

Lemma concat_inj l l' :
  Forall (fun s => ~ In " "%char (la s) /\ la s <> []) l ->
  Forall (fun s => ~ In " "%char (la s) /\ la s <> []) l' ->
  String.concat " " l = String.concat " " l' -> l = l'.
Proof.
  revert l'; induction l as [|s l IH]; intros [|s' l'] F F' H; auto.
  - exfalso. inversion F' as [|x y [Hs Hne] F2]; subst. apply (f_equal la) in H.
    cbn [String.concat] in H. destruct l'; [simpl in H; congruence|].
    rewrite !la_app in H. destruct (la s'); [congruence|discriminate].
  - exfalso. inversion F as [|x y [Hs Hne] F2]; subst. apply (f_equal la) in H.
    cbn [String.concat] in H. destruct l; [simpl in H; congruence|].
    rewrite !la_app in H. destruct (la s); [congruence|discriminate].
  - inversion F as [|x y [Hs Hne] F2]; subst. inversion F' as [|x y [Hs' Hne'] F2']; subst.
    apply (f_equal la) in H. cbn [String.concat] in H.
    destruct l as [|t l], l' as [|t' l'].
    + apply la_inj in H; congruence.
    + exfalso. rewrite !la_app in H. apply Hs. rewrite H, in_app_iff. right; left; auto.
    + exfalso. rewrite !la_app in H. apply Hs'. rewrite <- H, in_app_iff. right; left; auto.
    + rewrite !la_app in H. cbn [la app] in H. apply split_uniq in H; auto.
      destruct H as [H1 H2]. apply la_inj in H1, H2. rewrite (IH (t' :: l')); auto. congruence.
Qed.

Definition key (l : list pauli) : list (nat * nat) := map (fun p => (p_alpha p, p_gamma p)) l.

Lemma cons_inv {A} (x y : A) l l' : x :: l = y :: l' -> x = y /\ l = l'.
Proof. intros H; injection H; auto. Qed.

Lemma repr_map_key l l' : map Pauli_repr_nocoeff l = map Pauli_repr_nocoeff l' <-> key l = key l'.
Proof.
  unfold key. revert l'; induction l as [|p l IH]; intros [|q l']; simpl; split; intros H; try discriminate; auto.
  - apply cons_inv in H. destruct H as [H1 H2]. apply repr_inj in H1. destruct H1 as [-> ->]. f_equal. apply IH; auto.
  - injection H as H1 H2 H3. rewrite (repr_eq p q) by auto. f_equal. apply IH; auto.
Qed.

Lemma hash_text_iff a b : mono_hash_text a = mono_hash_text b <->
  isreal (m_coeff a) = isreal (m_coeff b) /\ key (m_paulis a) = key (m_paulis b).
Proof.
  unfold mono_hash_text. split.
  - intros H. apply (f_equal la) in H. rewrite !la_app in H.
    assert (E : isreal (m_coeff a) = isreal (m_coeff b)).
    { destruct (isreal (m_coeff a)), (isreal (m_coeff b)); auto; discriminate. }
    split; auto. rewrite E in H. apply app_inv_head in H. apply la_inj in H.
    apply concat_inj in H; [apply repr_map_key; auto| |];
      apply Forall_forall; intros s Hs; apply in_map_iff in Hs; destruct Hs as (p & <- & _);
      split; auto using repr_nospace, repr_nonempty.
  - intros [-> H]. apply repr_map_key in H. rewrite H; auto.
Qed.

Lemma zip_eq_key l l' : List.length l = List.length l' -> (zip_eq l l' = true <-> key l = key l').
Proof.
  unfold key. revert l'; induction l as [|p l IH]; intros [|q l'] Hl; simpl in *; try lia.
  - tauto.
  - rewrite andb_true_iff. unfold Pauli_eq. rewrite andb_true_iff, !Nat.eqb_eq, IH by lia.
    split.
    + intros [[-> ->] ->]; auto.
    + intros H; injection H; intros; auto.
Qed.

(** ** Equality *)

Lemma mono_eq_iff a b : List.length (m_paulis a) = List.length (m_paulis b) ->
  exists r, mono_eq a b = Ok r /\
    (r = true <-> isreal (m_coeff a) = isreal (m_coeff b) /\ key (m_paulis a) = key (m_paulis b)).
Proof.
  intros Hl. unfold mono_eq. rewrite Hl, Nat.eqb_refl. cbn [negb].
  destruct (isreal (m_coeff a)), (isreal (m_coeff b)); cbn [andb orb negb];
    eexists; (split; [reflexivity|]); rewrite ?zip_eq_key by auto; intuition congruence.
Qed.

Lemma mono_eq_spec a b :
  (List.length (m_paulis a) <> List.length (m_paulis b) -> mono_eq a b = Err AssertionError) /\
  (List.length (m_paulis a) = List.length (m_paulis b) ->
     exists r, mono_eq a b = Ok r /\
       (r = true <-> isreal (m_coeff a) = isreal (m_coeff b) /\
          map (fun p => (p_alpha p, p_gamma p)) (m_paulis a) =
          map (fun p => (p_alpha p, p_gamma p)) (m_paulis b)) /\
       (r = true <-> mono_hash_text a = mono_hash_text b)).
Proof.
  split.
  - intros H. unfold mono_eq. apply Nat.eqb_neq in H. rewrite H. auto.
  - intros H. destruct (mono_eq_iff a b H) as (r & E & Hr). exists r.
    rewrite hash_text_iff. auto.
Qed.

Lemma mono_eq_equiv :
  (forall a, mono_eq a a = Ok true) /\
  (forall a b, mono_eq a b = Ok true -> mono_eq b a = Ok true) /\
  (forall a b c, mono_eq a b = Ok true -> mono_eq b c = Ok true -> mono_eq a c = Ok true).
Proof.
  assert (L : forall a b, mono_eq a b = Ok true ->
            List.length (m_paulis a) = List.length (m_paulis b)).
  { intros a b H. destruct (Nat.eq_dec (List.length (m_paulis a)) (List.length (m_paulis b))); auto.
    apply (mono_eq_spec a b) in n. congruence. }
  assert (I : forall a b, mono_eq a b = Ok true <->
     List.length (m_paulis a) = List.length (m_paulis b) /\
     isreal (m_coeff a) = isreal (m_coeff b) /\ key (m_paulis a) = key (m_paulis b)).
  { intros a b. split.
    - intros H. pose proof (L a b H) as Hl. destruct (mono_eq_iff a b Hl) as (r & E & Hr).
      rewrite H in E. injection E as <-. intuition.
    - intros [Hl H]. destruct (mono_eq_iff a b Hl) as (r & E & Hr). rewrite E. f_equal. apply Hr; auto. }
  repeat split.
  - intros a; apply I; auto.
  - intros a b H; apply I in H; apply I; intuition.
  - intros a b c H1 H2; apply I in H1; apply I in H2; apply I; intuition congruence.
Qed.

(** ** Pauli equality against hash *)

Lemma append_length s t : String.length (s ++ t)%string = String.length s + String.length t.
Proof. induction s; simpl; auto. Qed.

Lemma pauli_hash_refuted : exists p q, constructible p /\ constructible q /\ Pauli_eq p q = true /\
  forall show, Pauli_repr show p <> Pauli_repr show q.
Proof.
  exists {| p_alpha := 0; p_gamma := 1; p_coeff := g1 |}, {| p_alpha := 0; p_gamma := 1; p_coeff := gi |}.
  split; [apply valid_constructible; unfold valid; simpl; lia|].
  split; [apply valid_constructible; unfold valid; simpl; lia|].
  split; [reflexivity|]. intros show H. apply (f_equal String.length) in H.
  unfold Pauli_repr in H. cbn [p_coeff] in H.
  replace (geqb g1 g1) with true in H by reflexivity.
  replace (geqb gi g1) with false in H by reflexivity.
  rewrite !append_length in H.
  change (Pauli_repr_nocoeff {| p_alpha := 0; p_gamma := 1; p_coeff := gi |}) with
         (Pauli_repr_nocoeff {| p_alpha := 0; p_gamma := 1; p_coeff := g1 |}) in H.
  simpl in H. lia.
Qed.

Lemma pauli_hash_partial p q show : Pauli_eq p q = true -> p_coeff p = p_coeff q ->
  Pauli_repr show p = Pauli_repr show q.
Proof.
  unfold Pauli_eq, Pauli_repr, Pauli_repr_nocoeff. rewrite andb_true_iff, !Nat.eqb_eq.
  intros [-> ->] ->. auto.
Qed.

(** ** Order *)

Lemma list_lt_irrefl l : list_lt l l = false.
Proof. induction l as [|x l IH]; simpl; auto. rewrite Nat.eqb_refl; auto. Qed.

Lemma list_lt_trans a b c : list_lt a b = true -> list_lt b c = true -> list_lt a c = true.
Proof.
  revert b c; induction a as [|x a IH]; intros [|y b] [|z c]; simpl; try discriminate; auto.
  destruct (Nat.eqb_spec x y), (Nat.eqb_spec y z), (Nat.eqb_spec x z); subst; try congruence;
    rewrite ?Nat.ltb_lt; intros; try lia; eauto.
Qed.

Lemma list_lt_total a b : List.length a = List.length b -> list_lt a b = false -> list_lt b a = false -> a = b.
Proof.
  revert b; induction a as [|x a IH]; intros [|y b]; simpl; try discriminate; auto.
  intros Hl. rewrite (Nat.eqb_sym y x). destruct (Nat.eqb_spec x y); subst.
  - intros; f_equal; auto.
  - rewrite !Nat.ltb_ge. lia.
Qed.

Lemma list_lt_neq a b : list_lt a b = true -> a <> b.
Proof. intros H ->. rewrite list_lt_irrefl in H; discriminate. Qed.

Lemma Qcltb_lt x y : Qcltb x y = true <-> (x < y)%Qc.
Proof.
  unfold Qcltb. destruct (Qclt_le_dec x y) as [H|H]; split; auto; try discriminate.
  intros H2. exfalso. apply (Qclt_not_le _ _ H2 H).
Qed.

Definition cval (m : mono) : Qc := (gre (m_coeff m) + gim (m_coeff m))%Qc.
Definition gam (m : mono) : list nat := map p_gamma (m_paulis m).

Lemma mono_lt_real a b : isreal (m_coeff a) = isreal (m_coeff b) ->
  (mono_lt a b = true <-> list_lt (gam a) (gam b) = true \/ (gam a = gam b /\ (cval a < cval b)%Qc)).
Proof.
  intros H. unfold mono_lt. fold (gam a) (gam b).
  destruct (list_eq_dec Nat.eq_dec (gam a) (gam b)) as [E|E].
  - rewrite H. destruct (isreal (m_coeff b)); cbn [negb andb];
      fold (cval a) (cval b); rewrite Qcltb_lt, E, list_lt_irrefl; intuition discriminate.
  - tauto.
Qed.

Lemma key_gam_locs a b : gam a = gam b -> map p_alpha (m_paulis a) = map p_alpha (m_paulis b) ->
  key (m_paulis a) = key (m_paulis b).
Proof.
  unfold gam, key. generalize (m_paulis a) as l, (m_paulis b) as l'.
  induction l as [|p l IH]; intros [|q l'] H1 H2; try discriminate; auto.
  simpl in *. injection H1 as H1 H1'. injection H2 as H2 H2'. rewrite H1, H2. f_equal; auto.
Qed.

Lemma mono_lt_order_partial :
  (forall a, mono_lt a a = false) /\
  (forall a b, isreal (m_coeff a) = isreal (m_coeff b) ->
     mono_lt a b = true -> mono_lt b a = false) /\
  (forall a b c, isreal (m_coeff a) = isreal (m_coeff b) -> isreal (m_coeff b) = isreal (m_coeff c) ->
     mono_lt a b = true -> mono_lt b c = true -> mono_lt a c = true) /\
  (forall a b, isreal (m_coeff a) = isreal (m_coeff b) ->
     map p_alpha (m_paulis a) = map p_alpha (m_paulis b) ->
     mono_lt a b = false -> mono_lt b a = false -> mono_eq a b = Ok true).
Proof.
  split; [|split; [|split]].
  - intros a. destruct (mono_lt a a) eqn:E; auto. apply mono_lt_real in E; auto.
    destruct E as [E|[_ E]].
    + rewrite list_lt_irrefl in E; discriminate.
    + exfalso. apply (Qclt_not_eq _ _ E); auto.
  - intros a b H E. destruct (mono_lt b a) eqn:E2; auto. exfalso.
    apply mono_lt_real in E; auto. apply mono_lt_real in E2; auto.
    destruct E as [E|[E1 E]], E2 as [E2|[E3 E2]].
    + pose proof (list_lt_trans _ _ _ E E2) as X. rewrite list_lt_irrefl in X; discriminate.
    + rewrite E3, list_lt_irrefl in E; discriminate.
    + rewrite E1, list_lt_irrefl in E2; discriminate.
    + pose proof (Qclt_trans _ _ _ E E2) as X. apply (Qclt_not_eq _ _ X); auto.
  - intros a b c H1 H2 E1 E2. apply mono_lt_real in E1; auto. apply mono_lt_real in E2; auto.
    apply mono_lt_real; [congruence|].
    destruct E1 as [E|[E1 E]], E2 as [E2|[E3 E2]].
    + left; eapply list_lt_trans; eauto.
    + left; congruence.
    + left; congruence.
    + right; split; [congruence|]. eapply Qclt_trans; eauto.
  - intros a b H HL E1 E2.
    assert (HG : gam a = gam b).
    { apply list_lt_total.
      - unfold gam. rewrite !map_length. rewrite <- (map_length p_alpha (m_paulis a)), HL, map_length; auto.
      - destruct (list_lt (gam a) (gam b)) eqn:X; auto.
        assert (mono_lt a b = true) by (apply mono_lt_real; auto). congruence.
      - destruct (list_lt (gam b) (gam a)) eqn:X; auto.
        assert (mono_lt b a = true) by (apply mono_lt_real; auto). congruence. }
    assert (Hl : List.length (m_paulis a) = List.length (m_paulis b)).
    { rewrite <- (map_length p_alpha (m_paulis a)), HL, map_length; auto. }
    destruct (mono_eq_iff a b Hl) as (r & E & Hr). rewrite E. f_equal. apply Hr.
    split; auto. apply key_gam_locs; auto.
Qed.

Definition X0 (c : gq) : mono :=
  mk_mono [{| p_alpha := 0; p_gamma := 1; p_coeff := c |}].
Definition X1 (c : gq) : mono :=
  mk_mono [{| p_alpha := 1; p_gamma := 1; p_coeff := c |}].

Lemma single_fresh a g c : g <= 3 ->
  fresh (mk_mono [{| p_alpha := a; p_gamma := g; p_coeff := c |}]).
Proof.
  intros Hg. apply fresh_wfc. split; [split; [reflexivity|split]|reflexivity].
  - repeat constructor.
  - constructor; [exact Hg|constructor].
Qed.

Lemma mono_lt_refuted :
  (exists a b, fresh a /\ fresh b /\ m_locs a = m_locs b /\ mono_lt a b = true /\ mono_lt b a = true) /\
  (exists a b, fresh a /\ fresh b /\ List.length (m_paulis a) = List.length (m_paulis b) /\
     mono_lt a b = false /\ mono_lt b a = false /\ mono_eq a b = Ok false).
Proof.
  split.
  - exists (X0 g1), (X0 gi). repeat split; try reflexivity; apply single_fresh; lia.
  - exists (X0 g1), (X1 g1). repeat split; try reflexivity; apply single_fresh; lia.
Qed.

(** ** Which coefficient products use *)

(** Expressions built with the constructor and [*] only. *)
Inductive mexpr := MLeaf (ps : list pauli) | MMul (x y : mexpr).

Fixpoint meval (ord : list nat -> list nat) (e : mexpr) : res mono :=
  match e with
  | MLeaf ps => mono_init ps
  | MMul x y => do a <- meval ord x; do b <- meval ord y; mono_mul ord a b
  end.

Fixpoint mexpr_ok (n : nat) (e : mexpr) : Prop :=
  match e with
  | MLeaf ps => Forall constructible ps /\ NoDup (map p_alpha ps) /\ Forall (fun p => p_alpha p < n) ps
  | MMul x y => mexpr_ok n x /\ mexpr_ok n y
  end.

(** the matrix of the expression: products of 2x2 blocks for leaves, matrix products above *)
Fixpoint mexpr_mat (n : nat) (e : mexpr) : mat gq :=
  match e with
  | MLeaf ps => kronl (map (fun s => match find (fun p => Nat.eqb (p_alpha p) s) ps with
                                     | Some p => pauli_mat p | None => mid end) (seq 0 n))
  | MMul x y => mmul (2 ^ n) (mexpr_mat n x) (mexpr_mat n y)
  end.

Lemma meval_spec ord n e : reorders ord -> mexpr_ok n e ->
  exists m, meval ord e = Ok m /\ fresh m /\ sites_below n m /\
    meq (2 ^ n) (denote n m) (mexpr_mat n e).
Proof.
  intros Ho. induction e as [ps|x IHx y IHy]; simpl.
  - intros (Hc & Hn & Hb). exists (mk_mono (sort_alpha ps)).
    assert (HI : mono_init ps = Ok (mk_mono (sort_alpha ps))) by (apply mono_init_ok; auto).
    assert (HF : fresh (mk_mono (sort_alpha ps))) by (exists ps; auto).
    assert (HB : sites_below n (mk_mono (sort_alpha ps))).
    { unfold sites_below; simpl. rewrite Forall_forall in *. intros p Hp. apply Hb.
      apply (Permutation_in _ (sort_perm ps)); auto. }
    repeat split; auto. rewrite denote_sites by (try apply fresh_wfc; auto).
    pose proof (kronl_ext (site_mat (sort_alpha ps))
      (fun s => match find (fun p => Nat.eqb (p_alpha p) s) ps with
                | Some p => pauli_mat p | None => mid end) (seq 0 n)) as E.
    rewrite seq_length in E. apply E. intros s _. unfold site_mat.
    rewrite (look_perm _ ps).
    + unfold look. reflexivity.
    + eapply Permutation_NoDup; [|exact Hn]. apply Permutation_map, Permutation_sym, sort_perm.
    + apply sort_perm.
  - intros [Hx Hy]. destruct (IHx Hx) as (a & Ea & Fa & Ba & Da).
    destruct (IHy Hy) as (b & Eb & Fb & Bb & Db). rewrite Ea, Eb. cbn [bind].
    destruct (mono_mul_spec ord a b n Ho Fa Fb Ba Bb) as (c & Ec & Bc & Dc).
    destruct (mono_mul_wf_spec ord a b Ho Fa Fb) as (c' & Ec' & Fc & _).
    rewrite Ec in Ec'. injection Ec' as <-.
    exists c. repeat split; auto. rewrite Dc, Da, Db. reflexivity.
Qed.

(** The visible coefficient plays no role in a product. *)
Lemma mono_mul_ignores_coeff ord a b x y :
  mono_mul ord (set_coeff a x) (set_coeff b y) = mono_mul ord a b.
Proof. reflexivity. Qed.

Definition ord_id (l : list nat) := l.
Lemma ord_id_ok : reorders ord_id.
Proof. intros l; apply Permutation_refl. Qed.

Lemma meq_differ n (A B : mat gq) i j : i < n -> j < n -> geqb (A i j) (B i j) = false -> ~ meq n A B.
Proof.
  intros Hi Hj H E. rewrite (E i j Hi Hj) in H.
  assert (X : geqb (B i j) (B i j) = true) by (apply geqb_eq; auto). congruence.
Qed.

(** After commutator, conj or a change of coeff, products disagree with the operator. *)
Lemma coeff_commutator_refuted : exists a b c d r, fresh a /\ fresh b /\ fresh d /\
  mono_commutator ord_id a b = Ok c /\ mono_mul ord_id c d = Ok r /\
  ~ meq (2 ^ 1) (denote 1 r) (mmul (2 ^ 1) (denote 1 c) (denote 1 d)).
Proof.
  exists (X0 g1), (X0 g1). eexists. exists (X0 g1). eexists.
  split; [apply single_fresh; lia|]. split; [apply single_fresh; lia|].
  split; [apply single_fresh; lia|]. split; [reflexivity|]. split; [reflexivity|].
  apply meq_differ with (i := 0) (j := 1); [simpl; lia|simpl; lia|]. vm_compute. reflexivity.
Qed.

Lemma coeff_scalar_refuted : exists a s d r, fresh a /\ fresh d /\
  mono_mul ord_id (set_coeff a (gmul (m_coeff a) s)) d = Ok r /\
  ~ meq (2 ^ 1) (denote 1 r) (mmul (2 ^ 1) (denote 1 (set_coeff a (gmul (m_coeff a) s))) (denote 1 d)).
Proof.
  exists (X0 g1), gi, (X0 g1). eexists.
  split; [apply single_fresh; lia|]. split; [apply single_fresh; lia|]. split; [reflexivity|].
  apply meq_differ with (i := 0) (j := 0); [simpl; lia|simpl; lia|]. vm_compute. reflexivity.
Qed.

Lemma coeff_conj_refuted : exists a d r, fresh a /\ fresh d /\
  ~ meq (2 ^ 1) (denote 1 (mono_conj a)) (madj (denote 1 a)) /\
  mono_mul ord_id (mono_conj a) d = Ok r /\
  ~ meq (2 ^ 1) (denote 1 r) (mmul (2 ^ 1) (denote 1 (mono_conj a)) (denote 1 d)).
Proof.
  exists (X0 gi), (X0 g1). eexists.
  split; [apply single_fresh; lia|]. split; [apply single_fresh; lia|]. split.
  { apply meq_differ with (i := 0) (j := 1); [simpl; lia|simpl; lia|]. vm_compute. reflexivity. }
  split; [reflexivity|].
  apply meq_differ with (i := 0) (j := 0); [simpl; lia|simpl; lia|]. vm_compute. reflexivity.
Qed.

(** ** to_oranssi *)

(** Rebuild a monomial with unit coefficients from a key: one letter per site. *)
Definition rebuild (k : string * list nat) : res mono :=
  do ps <- mapM (fun cs => Pauli_init (Z.of_nat (snd cs)) (GStr (String (fst cs) EmptyString)) (CNum g1))
                (combine (la (fst k)) (snd k));
  mono_init ps.

Definition unit_pauli (p : pauli) : pauli := {| p_alpha := p_alpha p; p_gamma := p_gamma p; p_coeff := g1 |}.

Definition lchar (g : nat) : ascii :=
  match g with 0 => "I" | 1 => "X" | 2 => "Y" | _ => "Z" end%char.

Lemma letter_ok p : valid p -> letter p = Ok (String (lchar (p_gamma p)) EmptyString).
Proof.
  unfold valid, letter, int2str, lchar. intros H.
  destruct (p_gamma p) as [|[|[|[|g]]]]; try lia; reflexivity.
Qed.

Lemma concat_chars (f : pauli -> ascii) l :
  la (String.concat "" (map (fun p => String (f p) EmptyString) l)) = map f l.
Proof.
  induction l as [|p l IH]; auto. cbn [map String.concat].
  destruct (map (fun p => String (f p) EmptyString) l) eqn:E.
  - destruct l; [reflexivity|discriminate].
  - rewrite !la_app, IH. reflexivity.
Qed.

Lemma init_letter s g : g <= 3 ->
  Pauli_init (Z.of_nat s) (GStr (String (lchar g) EmptyString)) (CNum g1) =
  Ok {| p_alpha := s; p_gamma := g; p_coeff := g1 |}.
Proof.
  intros Hg. unfold Pauli_init.
  replace (Z.of_nat s <? 0)%Z with false by (symmetry; apply Z.ltb_ge; lia).
  destruct g as [|[|[|[|g]]]]; try lia; simpl; rewrite Nat2Z.id; reflexivity.
Qed.

Lemma combine_map {A B C} (f : A -> B) (g : A -> C) l :
  combine (map f l) (map g l) = map (fun x => (f x, g x)) l.
Proof. induction l; simpl; congruence. Qed.

Lemma mapM_map {A B C} (f : B -> res C) (g : A -> B) l : mapM f (map g l) = mapM (fun x => f (g x)) l.
Proof. induction l as [|x l IH]; simpl; auto. rewrite IH; auto. Qed.

Lemma ss_filter_sites f l : StronglySorted lt (sites l) -> StronglySorted lt (sites (filter f l)).
Proof.
  induction l as [|p l IH]; simpl; intros H; auto.
  apply StronglySorted_inv in H. destruct H as [H1 H2].
  destruct (f p); simpl; auto. constructor; auto.
  rewrite Forall_forall in *. intros x Hx. unfold sites in Hx. apply in_map_iff in Hx.
  destruct Hx as (q & <- & Hq). apply H2. apply in_map. apply filter_In in Hq; tauto.
Qed.

Lemma to_oranssi_spec m : fresh m ->
  exists str ss, mono_to_oranssi m = Ok (str, ss) /\ StronglySorted lt ss /\
    (forall s, In s ss <-> letter_on m s <> 0) /\ String.length str = List.length ss /\
    exists m', rebuild (str, ss) = Ok m' /\ fresh m' /\ m_coeff m' = g1 /\ m_locs m' = ss /\
      forall n, mono_string n m' = mono_string n m.
Proof.
  intros Hf. apply fresh_wfc in Hf. destruct Hf as ((HL & HS & HV) & HC).
  unfold mono_to_oranssi.
  set (ps := filter (fun p => negb (p_gamma p =? 0)) (m_paulis m)).
  assert (Vps : Forall valid ps).
  { unfold ps. rewrite Forall_forall in *. intros p Hp. apply filter_In in Hp. apply HV; tauto. }
  assert (Sps : StronglySorted lt (sites ps)) by (apply ss_filter_sites; auto).
  rewrite (mapM_ok _ (fun p => String (lchar (p_gamma p)) EmptyString)).
  2: { intros p Hp. apply letter_ok. rewrite Forall_forall in Vps; auto. }
  cbn [bind]. do 2 eexists. split; [reflexivity|].
  fold (sites ps). split; auto.
  assert (Hin : forall s, In s (sites ps) <-> letter_on m s <> 0).
  { intros s. unfold letter_on. change (find _ (m_paulis m)) with (look (m_paulis m) s). split.
    - intros H. unfold sites in H. apply in_map_iff in H. destruct H as (p & <- & Hp).
      unfold ps in Hp. apply filter_In in Hp. destruct Hp as [Hp Hg].
      rewrite look_in by (auto using ss_lt_nodup). apply negb_true_iff, Nat.eqb_neq in Hg. auto.
    - intros H. destruct (look (m_paulis m) s) as [p|] eqn:E; [|congruence].
      apply look_some in E. destruct E as [Hp <-]. apply in_map. unfold ps. apply filter_In.
      split; auto. apply negb_true_iff, Nat.eqb_neq; auto. }
  split; auto. split.
  { assert (SL : forall s, String.length s = List.length (la s)).
    { induction s; simpl; auto. }
    rewrite SL, concat_chars. unfold sites. rewrite !map_length. auto. }
  unfold rebuild. cbn [fst snd]. rewrite concat_chars. unfold sites at 1.
  rewrite combine_map, mapM_map. cbn [fst snd].
  rewrite (mapM_ok _ unit_pauli).
  2: { intros p Hp. apply init_letter. rewrite Forall_forall in Vps. apply Vps; auto. }
  cbn [bind].
  assert (SU : sites (map unit_pauli ps) = sites ps) by (unfold sites; rewrite map_map; auto).
  assert (HI : mono_init (map unit_pauli ps) = Ok (mk_mono (map unit_pauli ps))).
  { rewrite mono_init_ok by (rewrite SU; auto using ss_lt_nodup).
    rewrite (sorted_unique (sort_alpha (map unit_pauli ps)) (map unit_pauli ps)); auto.
    - apply strict_sites; [apply sort_sorted|].
      eapply Permutation_NoDup; [apply Permutation_map, Permutation_sym, sort_perm|].
      fold (sites (map unit_pauli ps)). rewrite SU. auto using ss_lt_nodup.
    - rewrite SU; auto.
    - apply sort_perm. }
  rewrite HI. eexists; split; [reflexivity|].
  split. { exists (map unit_pauli ps). split; auto. rewrite Forall_forall. intros p Hp.
    apply in_map_iff in Hp. destruct Hp as (q & <- & Hq). apply valid_constructible.
    rewrite Forall_forall in Vps. apply Vps in Hq. exact Hq. }
  split. { simpl. rewrite kprod_map. apply (kprod_1 (SR := GaussQ)). auto. }
  split. { simpl. exact SU. }
  intros n. unfold mono_string. apply map_ext. intros s. unfold letter_on. cbn [m_paulis mk_mono].
  assert (E : find (fun p => p_alpha p =? s) (map unit_pauli ps) =
              option_map unit_pauli (find (fun p => p_alpha p =? s) ps)).
  { clear. induction ps as [|p ps IH]; simpl; auto. destruct (p_alpha p =? s); auto. }
  rewrite E. unfold ps. rewrite find_filter_site by (auto using ss_lt_nodup).
  change (find _ (m_paulis m)) with (look (m_paulis m) s).
  destruct (look (m_paulis m) s) as [p|]; auto.
  destruct (Nat.eqb_spec (p_gamma p) 0); simpl; auto.
Qed.
