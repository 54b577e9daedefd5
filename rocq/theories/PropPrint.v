(** Property C93: the printed forms of Pauli objects. *)
From Coq Require Import List Arith ZArith QArith Qcanon Bool Lia String Ascii.
From Verif Require Import Py StarRing Matrix GaussQ PauliSpec PauliModel PauliSem PauliProofs PauliProofs2 PrintModel.
Import ListNotations.
Local Open Scope nat_scope.

(** ** Specification *)

(** Python's rendering of complex numbers: different numbers look different and no
    text contains a blank *)
Definition readable (show : gq -> string) : Prop :=
  (forall c d, show c = show d -> c = d) /\ (forall c s t, show c <> (s ++ " " ++ t)%string).

(** the same letters on the same sites *)
Definition same_word (a b : mono) : Prop :=
  Forall2 (fun p q => p_alpha p = p_alpha q /\ p_gamma p = p_gamma q) (m_paulis a) (m_paulis b).

(** ** Proofs *)
Lemma readable_nospace show c : readable show -> ~ In " "%char (la (show c)).
Proof.
  intros [_ H] Hi. apply in_split in Hi. destruct Hi as (s & t & E). apply (H c (string_of_list_ascii s) (string_of_list_ascii t)). apply la_inj. rewrite !la_app, E, !list_ascii_of_string_of_list_ascii. reflexivity.
Qed.
Lemma same_word_key a b : same_word a b <-> key (m_paulis a) = key (m_paulis b).
Proof.
  unfold same_word, key. generalize (m_paulis a) (m_paulis b). induction l as [|p l IH]; intros [|q m]; cbn [map]; split; intros H; try (inversion H; fail); auto.
  - inversion H as [|? ? ? ? [H1 H2] H3]; subst. rewrite H1, H2. f_equal. apply IH. exact H3.
  - injection H as H1 H2 H3. constructor; [auto|]. apply IH. exact H3.
Qed.
Lemma words_ok l : Forall (fun s => ~ In " "%char (la s) /\ la s <> []) (map Pauli_repr_nocoeff l).
Proof. apply Forall_forall. intros s Hs. apply in_map_iff in Hs. destruct Hs as (p & <- & _). split; [apply repr_nospace|apply repr_nonempty]. Qed.

Lemma plain_repr show a b : mono_repr show false a = mono_repr show false b <-> same_word a b.
Proof.
  rewrite same_word_key, <- repr_map_key. unfold mono_repr. split; [|intros ->; reflexivity]. apply concat_inj; apply words_ok.
Qed.

(** a text with a coefficient never looks like one without *)
Lemma coeff_apart show c s l : readable show -> (show c ++ " * " ++ s)%string <> String.concat " " (map Pauli_repr_nocoeff l).
Proof.
  intros Hs E. apply (f_equal la) in E. rewrite !la_app in E. change (la " * ") with (" "%char :: la "* ") in E. cbn [app] in E.
  destruct l as [|p [|q l]]; cbn [map String.concat] in E.
  - destruct (la (show c)); discriminate.
  - apply (repr_nospace p). rewrite <- E. apply in_or_app. right. left. reflexivity.
  - rewrite !la_app in E. cbn [la app] in E. apply split_uniq in E; [|apply readable_nospace; exact Hs|apply repr_nospace]. destruct E as [_ E]. destruct l; cbn [map String.concat] in E; [|rewrite la_app in E]; rewrite la_repr in E; discriminate.
Qed.
Lemma coeff_split show c d s t : readable show -> (show c ++ " " ++ s)%string = (show d ++ " " ++ t)%string -> c = d /\ s = t.
Proof.
  intros Hs E. apply (f_equal la) in E. rewrite !la_app in E. cbn [la app] in E. apply split_uniq in E; try (apply readable_nospace; exact Hs). destruct E as [E1 E2]. apply la_inj in E1, E2. split; [apply Hs; exact E1|exact E2].
Qed.
Lemma full_repr show a b : readable show -> mono_repr show true a = mono_repr show true b <-> same_word a b /\ m_coeff a = m_coeff b.
Proof.
  intros Hs. split.
  - unfold mono_repr. destruct (geqb (m_coeff a) g1) eqn:Ea, (geqb (m_coeff b) g1) eqn:Eb; intros E.
    + split; [apply (plain_repr show); exact E|]. apply geqb_eq in Ea, Eb. congruence.
    + exfalso. exact (coeff_apart show _ _ _ Hs (eq_sym E)).
    + exfalso. exact (coeff_apart show _ _ _ Hs E).
    + change (" * " ++ String.concat " " (map Pauli_repr_nocoeff (m_paulis a)))%string with (" " ++ ("* " ++ String.concat " " (map Pauli_repr_nocoeff (m_paulis a))))%string in E.
      change (" * " ++ String.concat " " (map Pauli_repr_nocoeff (m_paulis b)))%string with (" " ++ ("* " ++ String.concat " " (map Pauli_repr_nocoeff (m_paulis b))))%string in E.
      apply coeff_split in E; [|exact Hs]. destruct E as [E1 E2]. split; [|exact E1]. injection E2 as E2. apply (plain_repr show). exact E2.
  - intros [H Hc]. apply same_word_key in H. apply repr_map_key in H. unfold mono_repr. rewrite H, Hc. reflexivity.
Qed.

Lemma tex_text p : valid p -> exists s, Pauli_tex_nocoeff p = Ok s /\
  la s = if p_gamma p =? 0 then la "I_{" ++ la (show_nat (p_alpha p)) ++ la "}" else la "\sigma_{" ++ la (show_nat (p_alpha p)) ++ la "}^{" ++ [nth (p_gamma p) ["I"; "X"; "Y"; "Z"]%char "I"%char] ++ la "}".
Proof.
  intros H. unfold valid in H. unfold Pauli_tex_nocoeff, letter. destruct p as [a g c]. cbn [p_gamma p_alpha] in *.
  destruct g as [|[|[|[|g]]]]; [| | | |lia]; cbn; eexists; (split; [reflexivity|]); cbn [la]; rewrite !la_app; reflexivity.
Qed.
Lemma notdigit_brace : ~ is_digit "}"%char.
Proof. unfold is_digit; simpl; intuition discriminate. Qed.
Lemma tex_inj p q s : valid p -> valid q -> Pauli_tex_nocoeff p = Ok s -> Pauli_tex_nocoeff q = Ok s -> p_alpha p = p_alpha q /\ p_gamma p = p_gamma q.
Proof.
  intros Hp Hq Ep Eq. destruct (tex_text p Hp) as (s1 & E1 & L1). destruct (tex_text q Hq) as (s2 & E2 & L2). rewrite Ep in E1. injection E1 as <-. rewrite Eq in E2. injection E2 as <-. rewrite L1 in L2. clear L1 Ep Eq.
  unfold valid in *. destruct (p_gamma p =? 0) eqn:Gp, (p_gamma q =? 0) eqn:Gq; try discriminate.
  - apply Nat.eqb_eq in Gp, Gq. split; [|congruence]. apply app_inv_head in L2. cbn [la] in L2. apply split_uniq in L2; try (apply show_nat_notin, notdigit_brace). apply show_nat_inj, la_inj. tauto.
  - apply Nat.eqb_neq in Gp, Gq. apply app_inv_head in L2. cbn [la app] in L2. apply split_uniq in L2; try (apply show_nat_notin, notdigit_brace). destruct L2 as [A B]. split; [apply show_nat_inj, la_inj; exact A|].
    injection B as B. destruct (p_gamma p) as [|[|[|[|g]]]], (p_gamma q) as [|[|[|[|h]]]]; try lia; try reflexivity; discriminate.
Qed.
Lemma tex_nospace p s : valid p -> Pauli_tex_nocoeff p = Ok s -> ~ In " "%char (la s) /\ la s <> [].
Proof.
  intros Hp E. destruct (tex_text p Hp) as (s1 & E1 & L). rewrite E in E1. injection E1 as <-. rewrite L. unfold valid in Hp. split.
  - destruct (p_gamma p =? 0); rewrite !in_app_iff; intros H.
    + destruct H as [H|[H|H]]; [cbn in H; intuition discriminate| |cbn in H; intuition discriminate]. revert H. apply show_nat_notin, notdigit_space.
    + destruct H as [H|[H|[H|[H|H]]]]; try (cbn in H; intuition discriminate).
      * revert H. apply show_nat_notin, notdigit_space.
      * destruct (p_gamma p) as [|[|[|[|g]]]]; try lia; cbn in H; intuition discriminate.
  - destruct (p_gamma p =? 0); discriminate.
Qed.
Lemma texs l : Forall valid l -> exists ts, mapM Pauli_tex_nocoeff l = Ok ts /\ Forall2 (fun p s => Pauli_tex_nocoeff p = Ok s) l ts.
Proof.
  induction 1 as [|p l Hp Hl (ts & E & F)]; [exists []; split; [reflexivity|constructor]|]. destruct (tex_text p Hp) as (s & Es & _). exists (s :: ts). cbn [mapM]. rewrite Es. cbn [bind]. rewrite E. split; [reflexivity|]. constructor; assumption.
Qed.
Lemma texs_inj l m ts : Forall valid l -> Forall valid m -> Forall2 (fun p s => Pauli_tex_nocoeff p = Ok s) l ts -> Forall2 (fun p s => Pauli_tex_nocoeff p = Ok s) m ts ->
  Forall2 (fun p q => p_alpha p = p_alpha q /\ p_gamma p = p_gamma q) l m.
Proof.
  intros Hl Hm F. revert m Hm. induction F as [|p s l ts Hp F IH]; intros m Hm G; inversion G as [|q ? m' ? Hq G']; subst; constructor.
  - exact (tex_inj p q s (Forall_inv Hl) (Forall_inv Hm) Hp Hq).
  - apply IH; [exact (Forall_inv_tail Hl)|exact (Forall_inv_tail Hm)|exact G'].
Qed.
Lemma texs_same l m : Forall2 (fun p q => p_alpha p = p_alpha q /\ p_gamma p = p_gamma q) l m -> mapM Pauli_tex_nocoeff l = mapM Pauli_tex_nocoeff m.
Proof.
  induction 1 as [|p q l m [H1 H2] F IH]; [reflexivity|]. cbn [mapM]. rewrite IH. replace (Pauli_tex_nocoeff p) with (Pauli_tex_nocoeff q); [reflexivity|]. unfold Pauli_tex_nocoeff, letter. rewrite H1, H2. reflexivity.
Qed.
Lemma texs_ok l ts : Forall valid l -> Forall2 (fun p s => Pauli_tex_nocoeff p = Ok s) l ts -> Forall (fun s => ~ In " "%char (la s) /\ la s <> []) ts.
Proof. intros Hl F. induction F as [|p s l ts Hp F IH]; constructor; [exact (tex_nospace p s (Forall_inv Hl) Hp)|exact (IH (Forall_inv_tail Hl))]. Qed.

Lemma all_valid l : Forall constructible l -> Forall valid l.
Proof. apply Forall_impl. intros p. apply valid_constructible. Qed.

(** ** C93 *)

(** Printing loses nothing: the text of a Pauli determines the object, the text of a
    monomial its sites, letters and coefficient (without the coefficient: sites and
    letters), for repr and for tex; and neither raises. *)
Theorem C93_repr_faithful : forall show, readable show ->
  (forall p q, Pauli_repr show p = Pauli_repr show q <-> p = q) /\
  (forall a b, mono_repr show true a = mono_repr show true b <-> same_word a b /\ m_coeff a = m_coeff b) /\
  (forall a b, mono_repr show false a = mono_repr show false b <-> same_word a b).
Proof.
  intros show Hs. split; [|split; [intros a b; apply full_repr; exact Hs|intros a b; apply plain_repr]].
  intros p q. split; [|intros ->; reflexivity]. intros E.
  set (m := fun p => {| m_locs := []; m_paulis := [p]; m_coeff := p_coeff p |}).
  assert (K : forall p, Pauli_repr show p = mono_repr show true (m p)) by (intros r; reflexivity).
  rewrite !K in E. apply (full_repr show (m p) (m q) Hs) in E. destruct E as [W C]. cbn in C. inversion W as [|? ? ? ? [W1 W2] _]; subst. destruct p, q. cbn in *. congruence.
Qed.
Print Assumptions C93_repr_faithful.

Theorem C93_tex_faithful_partial : forall show, readable show ->
  (forall a, Forall constructible (m_paulis a) -> forall coeff, exists s, mono_tex show coeff a = Ok s) /\
  (forall a b, Forall constructible (m_paulis a) -> Forall constructible (m_paulis b) ->
     (mono_tex show true a = mono_tex show true b <-> same_word a b /\ m_coeff a = m_coeff b) /\ (mono_tex show false a = mono_tex show false b <-> same_word a b)) /\
  (forall p, constructible p -> exists s, Pauli_tex show p = Ok s) /\
  (forall p q, constructible p -> constructible q -> (Pauli_tex show p = Pauli_tex show q <-> p = q \/ (p_gamma p = 0 /\ p_gamma q = 0 /\ p_coeff p = p_coeff q))).
Proof.
  intros show Hs. split; [|split; [|split]].
  - intros a Ha coeff. destruct (texs _ (all_valid _ Ha)) as (ts & E & _). unfold mono_tex. rewrite E. eexists. reflexivity.
  - intros a b Ha Hb. apply all_valid in Ha, Hb. destruct (texs _ Ha) as (ts & Ea & Fa). destruct (texs _ Hb) as (us & Eb & Fb). pose proof (texs_ok _ _ Ha Fa) as Oa. pose proof (texs_ok _ _ Hb Fb) as Ob.
    assert (W : String.concat " " ts = String.concat " " us -> same_word a b). { intros E. apply concat_inj in E; [|assumption|assumption]. subst us. exact (texs_inj _ _ ts Ha Hb Fa Fb). }
    split; split.
    + unfold mono_tex. rewrite Ea, Eb. cbn [bind]. intros E. injection E as E. apply coeff_split in E; [|exact Hs]. destruct E as [E1 E2]. auto.
    + intros [Hw Hc]. unfold mono_tex. rewrite (texs_same _ _ Hw), Hc. reflexivity.
    + unfold mono_tex. rewrite Ea, Eb. cbn [bind]. intros E. injection E as E. auto.
    + intros Hw. unfold mono_tex. rewrite (texs_same _ _ Hw). reflexivity.
  - intros p Hp. apply valid_constructible in Hp. destruct (tex_text p Hp) as (s & E & _). unfold Pauli_tex. unfold Pauli_tex_nocoeff in E. destruct (p_gamma p =? 0); [eexists; reflexivity|]. destruct (letter p); [|discriminate]. eexists. reflexivity.
  - intros p q Hp Hq. apply valid_constructible in Hp, Hq. destruct (tex_text p Hp) as (s & E & _). destruct (tex_text q Hq) as (t & F & _).
    assert (K : forall r u, Pauli_tex_nocoeff r = Ok u -> p_gamma r <> 0 -> Pauli_tex show r = Ok (show (p_coeff r) ++ " " ++ u)%string).
    { intros r u Er Hr. unfold Pauli_tex. unfold Pauli_tex_nocoeff in Er. apply Nat.eqb_neq in Hr. rewrite Hr in *. destruct (letter r); [|discriminate]. cbn [bind] in *. injection Er as <-. reflexivity. }
    assert (K0 : forall r, p_gamma r = 0 -> Pauli_tex show r = Ok (show (p_coeff r) ++ " " ++ "I")%string) by (intros r Hr; unfold Pauli_tex; rewrite Hr; reflexivity).
    assert (NI : forall r, valid r -> Pauli_tex_nocoeff r <> Ok "I"%string). { intros r Hr Er. destruct (tex_text r Hr) as (u & Eu & Lu). rewrite Er in Eu. injection Eu as <-. destruct (p_gamma r =? 0); discriminate. }
    split.
    + destruct (Nat.eq_dec (p_gamma p) 0) as [Zp|Zp], (Nat.eq_dec (p_gamma q) 0) as [Zq|Zq].
      * rewrite (K0 p Zp), (K0 q Zq). intros X. injection X as X. apply coeff_split in X; [|exact Hs]. right. tauto.
      * rewrite (K0 p Zp), (K q t F Zq). intros X. injection X as X. apply coeff_split in X; [|exact Hs]. destruct X as [_ X]. subst t. exfalso. exact (NI q Hq F).
      * rewrite (K p s E Zp), (K0 q Zq). intros X. injection X as X. apply coeff_split in X; [|exact Hs]. destruct X as [_ X]. subst s. exfalso. exact (NI p Hp E).
      * rewrite (K p s E Zp), (K q t F Zq). intros X. injection X as X. apply coeff_split in X; [|exact Hs]. destruct X as [X1 X2]. subst t. destruct (tex_inj p q s Hp Hq E F). left. destruct p, q. cbn in *. congruence.
    + intros [->|(Zp & Zq & Hc)]; [reflexivity|]. rewrite (K0 p Zp), (K0 q Zq), Hc. reflexivity.
Qed.
Print Assumptions C93_tex_faithful_partial.

(** False for tex: identities on different sites print the same *)
Theorem C93_tex_faithful_refuted : exists p q, constructible p /\ constructible q /\ p <> q /\ forall show, Pauli_tex show p = Pauli_tex show q.
Proof.
  exists {| p_alpha := 0; p_gamma := 0; p_coeff := g1 |}, {| p_alpha := 1; p_gamma := 0; p_coeff := g1 |}.
  split; [exists 0%Z, (GStr "I"), (CNum g1); reflexivity|]. split; [exists 1%Z, (GStr "I"), (CNum g1); reflexivity|]. split; [discriminate|reflexivity].
Qed.
Print Assumptions C93_tex_faithful_refuted.

(** The same word denotes the same operator, so equal texts mean equal operators. *)
Theorem C93_same_text_same_operator : forall show, readable show -> forall a b n, mono_repr show true a = mono_repr show true b -> meq (2 ^ n) (denote n a) (denote n b).
Proof.
  intros show Hs a b n E. apply (full_repr show a b Hs) in E. destruct E as [W C]. unfold denote. rewrite C. replace (mono_string n b) with (mono_string n a); [reflexivity|].
  unfold mono_string. apply map_ext. intros s. unfold letter_on. unfold same_word in W. induction W as [|p q l m [H1 H2] W IH]; [reflexivity|]. cbn [find]. rewrite H1. destruct (p_alpha q =? s); [exact H2|exact IH].
Qed.
Print Assumptions C93_same_text_same_operator.

(** A readable rendering: numerators and denominators of the two parts. *)
Definition show_z (z : Z) : string := ((if (z <? 0)%Z then "-" else "+") ++ show_nat (Z.abs_nat z))%string.
Definition show_q (q : Qc) : string := (show_z (Qnum q) ++ "/" ++ show_nat (Pos.to_nat (Qden q)))%string.
Definition show_gq (c : gq) : string := (show_q (gre c) ++ "," ++ show_q (gim c))%string.
Lemma show_z_chars z c : In c (la (show_z z)) -> c = "-"%char \/ c = "+"%char \/ is_digit c.
Proof. unfold show_z. rewrite la_app. intros H. apply in_app_or in H. destruct H as [H|H]; [destruct (z <? 0)%Z; simpl in H; intuition|]. pose proof (show_nat_digits (Z.abs_nat z)) as F. rewrite Forall_forall in F. auto. Qed.
Lemma show_q_chars q c : In c (la (show_q q)) -> c = "-"%char \/ c = "+"%char \/ c = "/"%char \/ is_digit c.
Proof.
  unfold show_q. rewrite !la_app. intros H. apply in_app_or in H. destruct H as [H|H]; [apply show_z_chars in H; tauto|]. destruct H as [H|H]; [auto|]. simpl in H. pose proof (show_nat_digits (Pos.to_nat (Qden q))) as F. rewrite Forall_forall in F. auto.
Qed.
Lemma show_z_inj x y : show_z x = show_z y -> x = y.
Proof. unfold show_z. destruct (x <? 0)%Z eqn:Ex, (y <? 0)%Z eqn:Ey; intros H; try discriminate; injection H as H; apply show_nat_inj in H; lia. Qed.
Lemma notdigit_slash : ~ is_digit "/"%char.
Proof. unfold is_digit; simpl; intuition discriminate. Qed.
Lemma show_q_inj x y : show_q x = show_q y -> x = y.
Proof.
  intros H. apply (f_equal la) in H. unfold show_q in H. rewrite !la_app in H. cbn [la app] in H.
  assert (K : forall z, ~ In "/"%char (la (show_z z))) by (intros z Hz; apply show_z_chars in Hz; pose proof notdigit_slash; intuition discriminate).
  apply split_uniq in H; try apply K. destruct H as [H1 H2]. apply la_inj, show_z_inj in H1. apply la_inj, show_nat_inj, Pos2Nat.inj in H2. apply Qc_is_canon. destruct x as [[a b] cx], y as [[a' b'] cy]. cbn in *. subst. reflexivity.
Qed.
Lemma show_gq_readable : readable show_gq.
Proof.
  assert (K : forall q, ~ In ","%char (la (show_q q))) by (intros z Hz; apply show_q_chars in Hz; pose proof notdigit_comma; intuition discriminate).
  split.
  - intros c d H. apply (f_equal la) in H. unfold show_gq in H. rewrite !la_app in H. cbn [la app] in H. apply split_uniq in H; try apply K. destruct H as [H1 H2]. apply la_inj, show_q_inj in H1, H2. destruct c, d. cbn in *. congruence.
  - intros c s t H. apply (f_equal la) in H. rewrite !la_app in H. assert (Hi : In " "%char (la (show_gq c))) by (rewrite H; apply in_or_app; right; left; reflexivity).
    unfold show_gq in Hi. rewrite !la_app in Hi. apply in_app_or in Hi. pose proof notdigit_space. destruct Hi as [Hi|[Hi|Hi]]; [apply show_q_chars in Hi; intuition discriminate|discriminate|]. simpl in Hi. apply show_q_chars in Hi. intuition discriminate.
Qed.
Example C93_case : readable show_gq /\
  mono_repr show_gq true {| m_locs := [2; 5]; m_paulis := [{| p_alpha := 2; p_gamma := 2; p_coeff := g1 |}; {| p_alpha := 5; p_gamma := 3; p_coeff := gi |}]; m_coeff := gi |} = "+0/1,+1/1 * S(2,2) S(5,3)"%string /\
  mono_tex show_gq true {| m_locs := [0; 12]; m_paulis := [{| p_alpha := 0; p_gamma := 0; p_coeff := g1 |}; {| p_alpha := 12; p_gamma := 1; p_coeff := g1 |}]; m_coeff := g1 |} = Ok "+1/1,+0/1 I_{0} \sigma_{12}^{X}"%string.
Proof. split; [exact show_gq_readable|]. split; reflexivity. Qed.
