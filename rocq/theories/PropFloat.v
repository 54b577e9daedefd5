(** C105: products, commutes_with and commutator in double precision. *)
From Coq Require Import ZArith QArith Qcanon Bool Floats.SpecFloat Lia Permutation Setoid Morphisms Arith List.
From Verif Require Import Py StarRing Matrix GaussQ PauliSpec PauliModel PauliSem PauliProofs PauliProofs2
  FloatPauliModel FloatPauliProofs FloatLaws FloatExact.
Import ListNotations.
Local Open Scope nat_scope.

(** ** With exact numbers it is the program of PauliModel.v *)

Definition exact_numbers : numbers gq := mknumbers _ g1 gmul gsub geqb (fun i j k => gmul gi (levicevita i j k)).
Definition as_pauli (p : gpauli gq) : pauli := {| p_alpha := ga p; p_gamma := gg p; p_coeff := gc p |}.
Definition as_mono (m : gmono gq) : mono := {| m_locs := gm_locs m; m_paulis := map as_pauli (gm_paulis m); m_coeff := gm_coeff m |}.
Definition rmap {A B} (f : A -> B) (x : res A) : res B := match x with Ok y => Ok (f y) | Err e => Err e end.

Lemma as_init a g c : Pauli_init (Z.of_nat a) (GInt (Z.of_nat g)) (CNum c) = rmap as_pauli (gPauli_init a g c).
Proof.
  unfold Pauli_init, gPauli_init. replace (Z.of_nat a <? 0)%Z with false by (symmetry; apply Z.ltb_ge; lia). rewrite !Nat2Z.id.
  destruct g as [|[|[|[|g]]]]; [reflexivity|reflexivity|reflexivity|reflexivity|]. cbn [existsb pauli_idx_str2int_map snd].
  rewrite !(proj2 (Z.eqb_neq _ _)) by lia. reflexivity.
Qed.
Lemma as_mul p q : Pauli_mul (as_pauli p) (as_pauli q) = rmap as_pauli (gPauli_mul exact_numbers p q).
Proof.
  unfold Pauli_mul, gPauli_mul. cbn [as_pauli p_alpha p_gamma p_coeff]. destruct (negb _); [reflexivity|].
  destruct (Nat.eqb (gg p) (gg q)); [exact (as_init (ga p) 0 _)|]. destruct (Nat.eqb (gg p) 0); [apply as_init|]. destruct (Nat.eqb (gg q) 0); [apply as_init|].
  destruct (filter _ _); [reflexivity|apply as_init].
Qed.
Lemma as_insert p l : insert_alpha (as_pauli p) (map as_pauli l) = map as_pauli (g_insert p l).
Proof. induction l as [|q l IH]; [reflexivity|]. simpl. destruct (Nat.leb _ _); [reflexivity|]. simpl. f_equal. exact IH. Qed.
Lemma as_sort l : sort_alpha (map as_pauli l) = map as_pauli (g_sort l).
Proof. induction l as [|q l IH]; [reflexivity|]. cbn [map sort_alpha fold_right g_sort]. fold (sort_alpha (map as_pauli l)). rewrite IH. apply as_insert. Qed.
Lemma as_mono_init l : mono_init (map as_pauli l) = rmap as_mono (gmono_init exact_numbers l).
Proof.
  unfold mono_init, gmono_init. rewrite as_sort, !map_map, map_length. change (map (fun x => p_alpha (as_pauli x)) (g_sort l)) with (map ga (g_sort l)).
  destruct (Nat.eqb _ _); reflexivity.
Qed.
Lemma as_at m i : mono_at (as_mono m) i = rmap as_pauli (gmono_at m i).
Proof.
  unfold mono_at, gmono_at, mono_getitem. simpl. destruct (list_index (gm_locs m) i) as [k|]; [|reflexivity]. simpl. rewrite nth_error_map. destruct (nth_error _ k); reflexivity.
Qed.
Lemma as_mapM {A} (f : A -> res pauli) (g : A -> res (gpauli gq)) l : (forall x, f x = rmap as_pauli (g x)) -> mapM f l = rmap (map as_pauli) (mapM g l).
Proof. intros H. induction l as [|x l IH]; [reflexivity|]. simpl. rewrite H. destruct (g x); [|reflexivity]. simpl. rewrite IH. destruct (mapM g l); reflexivity. Qed.
Lemma as_mono_mul ord a b : mono_mul ord (as_mono a) (as_mono b) = rmap as_mono (gmono_mul exact_numbers ord a b).
Proof.
  unfold mono_mul, gmono_mul. cbn [m_locs as_mono].
  rewrite (as_mapM _ (fun i => do p <- gmono_at a i; do q <- gmono_at b i; gPauli_mul exact_numbers p q)).
  2: { intros i. rewrite !as_at. destruct (gmono_at a i); [|reflexivity]. simpl. destruct (gmono_at b i); [|reflexivity]. simpl. apply as_mul. }
  destruct (mapM _ (ord (filter _ _))) as [l1|]; [|reflexivity]. cbn [rmap bind].
  rewrite (as_mapM _ (fun j => do p <- gmono_at a j; gPauli_init (ga p) (gg p) (gc p))).
  2: { intros i. rewrite as_at. destruct (gmono_at a i); [|reflexivity]. simpl. apply as_init. }
  destruct (mapM _ (ord (filter _ _))) as [l2|]; [|reflexivity]. cbn [rmap bind].
  rewrite (as_mapM _ (fun j => do p <- gmono_at b j; gPauli_init (ga p) (gg p) (gc p))).
  2: { intros i. rewrite as_at. destruct (gmono_at b i); [|reflexivity]. simpl. apply as_init. }
  destruct (mapM _ (ord (filter _ _))) as [l3|]; [|reflexivity]. cbn [rmap bind]. rewrite <- !map_app. apply as_mono_init.
Qed.

(** one source: the definitions over any numbers, at the exact numbers, are the ones C01-C16 are about *)
Theorem C105_same_program : forall ord a b,
  mono_mul ord (as_mono a) (as_mono b) = rmap as_mono (gmono_mul exact_numbers ord a b) /\
  mono_commutes_with ord (as_mono a) (as_mono b) = gmono_commutes_with exact_numbers ord a b /\
  mono_commutator ord (as_mono a) (as_mono b) = rmap as_mono (gmono_commutator exact_numbers ord a b) /\
  forall ps, mono_init (map as_pauli ps) = rmap as_mono (gmono_init exact_numbers ps).
Proof.
  intros ord a b. split; [apply as_mono_mul|]. unfold mono_commutes_with, gmono_commutes_with, mono_commutator, gmono_commutator. rewrite !as_mono_mul.
  split; [|split; [|exact as_mono_init]]; (destruct (gmono_mul _ ord a b); [|reflexivity]); simpl; (destruct (gmono_mul _ ord b a); reflexivity).
Qed.
Print Assumptions C105_same_program.

(** ** Double precision *)

Lemma doubles_products ord a b n : reorders ord -> gwf finite_complex a -> gwf finite_complex b -> below n a ->
  exists l r, gmono_mul doubles ord a b = Ok l /\ gmono_mul doubles ord b a = Ok r /\ gm_locs r = gm_locs l /\
    csim (gm_coeff r) (sg cneg (Nat.odd (gclashes n a b)) (gm_coeff l)).
Proof.
  intros Ho Wa Wb B. apply (products_sign doubles csim cneg finite_complex); auto with typeclass_instances.
  - exact cmul_neg_l.
  - exact cmul_neg_r.
  - exact cneg_neg.
  - exact cmul_comm.
  - intros. apply doubles_anti; auto.
  - intros i Hi. unfold below in B. rewrite Forall_forall in B. auto.
Qed.

Definition cnan (x : fcomplex) : bool := is_nan (fst x) || is_nan (snd x).
Definition czero (x : fcomplex) : bool := is_zero (fst x) && is_zero (snd x).
Definition cfinite (x : fcomplex) : bool := is_finite (fst x) && is_finite (snd x).

Lemma ceqb_sign l r b : csim r (sg cneg b l) -> ceqb r l = negb (cnan l) && (negb b || czero l).
Proof.
  intros [H1 H2]. unfold ceqb, cnan, czero. destruct b; simpl in *.
  - rewrite (feqb_proper _ _ (fst l) (fst l) H1), (feqb_proper _ _ (snd l) (snd l) H2) by reflexivity. rewrite !feqb_opp.
    destruct (fst l), (snd l); reflexivity.
  - rewrite (feqb_proper _ _ (fst l) (fst l) H1), (feqb_proper _ _ (snd l) (snd l) H2) by reflexivity. rewrite !feqb_refl.
    destruct (is_nan (fst l)), (is_nan (snd l)); reflexivity.
Qed.

(** monomials built by the constructor from finite double precision coefficients *)
Definition built (m : gmono fcomplex) : Prop := gfresh doubles finite_complex m.
Definition strings_commute (n : nat) (a b : gmono fcomplex) : Prop :=
  meq (2 ^ n) (mmul (2 ^ n) (string_mat n a) (string_mat n b)) (mmul (2 ^ n) (string_mat n b) (string_mat n a)).

(** rounding never decides: the answer is right whenever the product has a
    coefficient that is not zero and not nan *)
Theorem C105_commutes_with : forall ord a b n, reorders ord -> built a -> built b -> below n a -> below n b ->
  exists l v, gmono_mul doubles ord a b = Ok l /\ gmono_commutes_with doubles ord a b = Ok v /\
    (cnan (gm_coeff l) = false -> czero (gm_coeff l) = false -> (v = true <-> strings_commute n a b)) /\
    (czero (gm_coeff l) = true -> v = true) /\ (cnan (gm_coeff l) = true -> v = false).
Proof.
  intros ord a b n Ho Fa Fb Ba Bb. destruct (doubles_products ord a b n Ho (gfresh_wf _ _ _ Fa) (gfresh_wf _ _ _ Fb) Ba) as (l & r & El & Er & _ & S).
  exists l. eexists. split; [exact El|]. unfold gmono_commutes_with. rewrite El, Er. split; [reflexivity|]. cbn [n_eqb doubles].
  rewrite (ceqb_sign _ _ _ S). pose proof (string_commute doubles _ a b n Fa Fb Ba Bb) as C. split; [|split].
  - intros H1 H2. rewrite H1, H2. simpl. rewrite orb_false_r, negb_true_iff. exact C.
  - intros H. rewrite H, orb_true_r, andb_true_r. unfold czero in H. apply andb_prop in H as [H1 H2]. unfold cnan. destruct (fst (gm_coeff l)), (snd (gm_coeff l)); simpl in *; congruence.
  - intros H. rewrite H. reflexivity.
Qed.
Print Assumptions C105_commutes_with.

(** the commutator has the letters of the product; its coefficient is zero for
    commuting strings and twice the coefficient of the product otherwise, rounded
    once *)
Theorem C105_commutator : forall ord a b n, reorders ord -> built a -> built b -> below n a -> below n b ->
  exists l c, gmono_mul doubles ord a b = Ok l /\ gmono_commutator doubles ord a b = Ok c /\
    gm_locs c = gm_locs l /\ gm_paulis c = gm_paulis l /\
    (strings_commute n a b -> cfinite (gm_coeff l) = true -> czero (gm_coeff c) = true) /\
    (~ strings_commute n a b -> csim (gm_coeff c) (fadd (fst (gm_coeff l)) (fst (gm_coeff l)), fadd (snd (gm_coeff l)) (snd (gm_coeff l)))).
Proof.
  intros ord a b n Ho Fa Fb Ba Bb. destruct (doubles_products ord a b n Ho (gfresh_wf _ _ _ Fa) (gfresh_wf _ _ _ Fb) Ba) as (l & r & El & Er & _ & S).
  exists l. eexists. split; [exact El|]. unfold gmono_commutator. rewrite El, Er. split; [reflexivity|]. cbn [gm_locs gm_paulis gm_coeff n_sub doubles].
  split; [reflexivity|]. split; [reflexivity|]. pose proof (string_commute doubles _ a b n Fa Fb Ba Bb) as C. fold (strings_commute n a b) in C. split.
  - intros H F. apply C in H. rewrite H in S. destruct S as [S1 S2]. simpl in S1, S2. unfold cfinite in F. apply andb_prop in F as [F1 F2].
    assert (Z : forall x y, fsim y x -> is_finite x = true -> is_zero (fsub x y) = true).
    { intros x y E Fx. pose proof (fsub_self x Fx) as Q. rewrite <- E in Q at 2. destruct Q as [Q|(s & t & Q & _)]; rewrite Q; reflexivity. }
    unfold czero, csub. cbn [fst snd]. rewrite (Z _ _ S1 F1), (Z _ _ S2 F2). reflexivity.
  - intros H. destruct (Nat.odd (gclashes n a b)) eqn:O; [|exfalso; apply H, C; reflexivity]. destruct S as [S1 S2]. simpl in S1, S2.
    split; unfold csub; cbn [fst snd]; [rewrite S1|rewrite S2]; rewrite fsub_opp; reflexivity.
Qed.
Print Assumptions C105_commutator.

(** ** Both conditions are needed *)

Definition tiny : fcomplex := (S754_finite false 4503599627370496 (-752), f0).   (* 2^-700 *)
Definition huge : fcomplex := (S754_finite false 4503599627370496 648, S754_finite false 4503599627370496 648). (* 2^700 (1 + i) *)
Definition one_site (g : nat) (c : fcomplex) : gmono fcomplex := mkgmono [0] [mkgpauli 0 g c] (cmul (f1, f0) c).

Lemma one_site_built g c : g <= 3 -> finite_complex c -> built (one_site g c).
Proof. intros H F. exists [mkgpauli 0 g c]. split; [constructor; [split; auto|constructor]|]. reflexivity. Qed.
Lemma one_site_below g c : below 1 (one_site g c). Proof. repeat constructor. Qed.

(** X and Z with coefficients 2^-700: the product underflows to zero and they are
    said to commute. X with coefficient 2^700 (1 + i): the square is nan and X is
    said not to commute with itself. *)
Theorem C105_range_refuted :
  (exists a b, built a /\ built b /\ below 1 a /\ below 1 b /\ gmono_commutes_with doubles (fun l => l) a b = Ok true /\ ~ strings_commute 1 a b) /\
  (exists a, built a /\ below 1 a /\ gmono_commutes_with doubles (fun l => l) a a = Ok false).
Proof.
  split.
  - exists (one_site 1 tiny), (one_site 3 tiny).
    assert (A : built (one_site 1 tiny)) by (apply one_site_built; [lia|split; reflexivity || exact I]).
    assert (B : built (one_site 3 tiny)) by (apply one_site_built; [lia|split; reflexivity || exact I]).
    split; [exact A|]. split; [exact B|]. split; [apply one_site_below|]. split; [apply one_site_below|]. split; [vm_compute; reflexivity|].
    intros C. apply (string_commute doubles finite_complex _ _ 1 A B) in C; [|apply one_site_below|apply one_site_below]. vm_compute in C. discriminate.
  - exists (one_site 1 huge). split; [apply one_site_built; [lia|split; reflexivity]|]. split; [apply one_site_below|]. vm_compute. reflexivity.
Qed.
Print Assumptions C105_range_refuted.

(** ** Coefficients 1, i, -1, -i: no rounding at all *)

(** the number a double stands for *)
Definition fval (x : float) : option Qc :=
  match x with
  | S754_zero _ => Some 0%Qc
  | S754_finite s m e => Some (Q2Qc (inject_Z (cond_Zopp s (Z.pos m)) * Qpower 2 e))
  | _ => None
  end.
Definition represents (x : fcomplex) (y : gq) : Prop := fval (fst x) = Some (gre y) /\ fval (snd x) = Some (gim y).

Definition fm1 : float := SFopp f1.
(** the literals 1.0, 1j, -1.0, -1j; either sign on a zero *)
Definition unit_literal (x : fcomplex) (y : gq) : Prop :=
  csim x (f1, f0) /\ y = g1 \/ csim x (f0, f1) /\ y = gi \/ csim x (fm1, f0) /\ y = gopp g1 \/ csim x (f0, fm1) /\ y = gopp gi.

Definition sample_f (k : nat) : fcomplex := match k with 0 => (f1, f0) | 1 => (f0, f1) | 2 => (fm1, f0) | _ => (f0, fm1) end.
Definition sample_g (k : nat) : gq := match k with 0 => g1 | 1 => gi | 2 => gopp g1 | _ => gopp gi end.
Lemma literal_cases x y : unit_literal x y <-> exists k, k < 4 /\ csim x (sample_f k) /\ y = sample_g k.
Proof.
  split.
  - intros [[H ->]|[[H ->]|[[H ->]|[H ->]]]]; [exists 0|exists 1|exists 2|exists 3]; repeat split; auto; apply H.
  - intros (k & Hk & H & ->). destruct k as [|[|[|[|k]]]]; [| | | |lia]; unfold unit_literal; auto.
Qed.
Lemma csim_b x y : (match fst x, fst y with S754_zero _, S754_zero _ => true | S754_finite s m e, S754_finite t n f => Bool.eqb s t && Pos.eqb m n && Z.eqb e f | _, _ => false end
   && match snd x, snd y with S754_zero _, S754_zero _ => true | S754_finite s m e, S754_finite t n f => Bool.eqb s t && Pos.eqb m n && Z.eqb e f | _, _ => false end) = true -> csim x y.
Proof.
  intros H. apply andb_prop in H as [H1 H2].
  assert (F : forall u v, match u, v with S754_zero _, S754_zero _ => true | S754_finite s m e, S754_finite t n f => Bool.eqb s t && Pos.eqb m n && Z.eqb e f | _, _ => false end = true -> fsim u v).
  { intros u v E. destruct u, v; try discriminate; [right; eauto|]. rewrite !andb_true_iff in E. destruct E as [[E1 E2] E3]. apply eqb_prop in E1. apply Pos.eqb_eq in E2. apply Z.eqb_eq in E3. subst. reflexivity. }
  split; apply F; auto.
Qed.
Lemma literal_mul x x' y y' : unit_literal x x' -> unit_literal y y' -> unit_literal (cmul x y) (gmul x' y').
Proof.
  rewrite !literal_cases. intros (i & Hi & Ei & ->) (j & Hj & Ej & ->). exists ((i + j) mod 4). split; [apply Nat.mod_upper_bound; lia|]. rewrite Ei, Ej. clear Ei Ej.
  destruct i as [|[|[|[|i]]]]; [| | | |lia]; destruct j as [|[|[|[|j]]]]; try lia;
    (split; [apply csim_b; vm_compute; reflexivity|apply geqb_eq; vm_compute; reflexivity]).
Qed.
Lemma literal_one : unit_literal (f1, f0) g1. Proof. left. split; reflexivity. Qed.
Lemma literal_ilevi g h : 1 <= g <= 3 -> 1 <= h <= 3 -> g <> h ->
  unit_literal (n_ilevi doubles (Z.of_nat g) (Z.of_nat h) (Z.of_nat (6 - g - h))) (n_ilevi exact_numbers (Z.of_nat g) (Z.of_nat h) (Z.of_nat (6 - g - h))).
Proof.
  intros Hg Hh Ne. apply literal_cases.
  assert (G : g = 1 \/ g = 2 \/ g = 3) by lia. assert (H : h = 1 \/ h = 2 \/ h = 3) by lia.
  destruct G as [-> | [-> | ->]]; destruct H as [-> | [-> | ->]]; try lia;
   (exists 1; split; [lia|split; [apply csim_b; vm_compute; reflexivity|apply geqb_eq; vm_compute; reflexivity]]) ||
   (exists 3; split; [lia|split; [apply csim_b; vm_compute; reflexivity|apply geqb_eq; vm_compute; reflexivity]]).
Qed.
Lemma fval_sim x y : fsim x y -> fval x = fval y.
Proof. intros [->|(s & t & -> & ->)]; reflexivity. Qed.
Lemma represents_sim x y z : csim x y -> represents y z -> represents x z.
Proof. intros [H1 H2] [R1 R2]. split; rewrite (fval_sim _ _ H1) || rewrite (fval_sim _ _ H2); auto. Qed.
Lemma represents_b x y : match fval (fst x), fval (snd x) with Some u, Some v => geqb (GQ u v) y | _, _ => false end = true -> represents x y.
Proof. unfold represents. destruct (fval (fst x)), (fval (snd x)); try discriminate. intros H. apply geqb_eq in H. subst y. split; reflexivity. Qed.
Lemma literal_represents x y : unit_literal x y -> represents x y.
Proof.
  rewrite literal_cases. intros (i & Hi & Ei & ->). apply (represents_sim _ _ _ Ei). apply represents_b. destruct i as [|[|[|[|i]]]]; [| | | |lia]; vm_compute; reflexivity.
Qed.
Lemma literal_sub x x' y y' : unit_literal x x' -> unit_literal y y' -> represents (csub x y) (gsub x' y').
Proof.
  rewrite !literal_cases. intros (i & Hi & [E1 E2] & ->) (j & Hj & [E3 E4] & ->). apply (represents_sim _ (csub (sample_f i) (sample_f j))).
  - split; unfold csub; cbn [fst snd]; [rewrite E1, E3|rewrite E2, E4]; reflexivity.
  - apply represents_b. destruct i as [|[|[|[|i]]]]; [| | | |lia]; destruct j as [|[|[|[|j]]]]; try lia; vm_compute; reflexivity.
Qed.
Lemma literal_eqb x x' y y' : unit_literal x x' -> unit_literal y y' -> ceqb x y = geqb x' y'.
Proof.
  rewrite !literal_cases. intros (i & Hi & [E1 E2] & ->) (j & Hj & [E3 E4] & ->). unfold ceqb. rewrite (feqb_proper _ _ _ _ E1 E3), (feqb_proper _ _ _ _ E2 E4).
  destruct i as [|[|[|[|i]]]]; [| | | |lia]; destruct j as [|[|[|[|j]]]]; try lia; vm_compute; reflexivity.
Qed.

(** two results of a call: the same exception, or monomials with the same sites and
    letters whose double precision coefficients represent the exact ones *)
Definition same_result (x : res (gmono fcomplex)) (y : res (gmono gq)) : Prop := rres (mrel represents) x y.

Lemma mrel_weaken a b : mrel unit_literal a b -> mrel represents a b.
Proof.
  intros (A & B & C). split; [exact A|]. split; [|apply literal_represents; auto]. induction B as [|p q l l' (B1 & B2 & B3) H IH]; constructor; auto.
  repeat split; auto; apply literal_represents; auto.
Qed.

Theorem C105_units_exact : forall ord a b a' b',
  mrel unit_literal a a' -> mrel unit_literal b b' ->
  Forall (fun p => gg p <= 3) (gm_paulis a) -> Forall (fun p => gg p <= 3) (gm_paulis b) ->
  same_result (gmono_mul doubles ord a b) (gmono_mul exact_numbers ord a' b') /\
  gmono_commutes_with doubles ord a b = mono_commutes_with ord (as_mono a') (as_mono b') /\
  same_result (gmono_commutator doubles ord a b) (gmono_commutator exact_numbers ord a' b').
Proof.
  intros ord a b a' b' Ha Hb Ga Gb.
  pose proof (mul_rel doubles exact_numbers unit_literal literal_one literal_mul literal_ilevi ord a b a' b' Ha Hb Ga Gb) as P.
  pose proof (mul_rel doubles exact_numbers unit_literal literal_one literal_mul literal_ilevi ord b a b' a' Hb Ha Gb Ga) as Q.
  split; [destruct P; constructor; apply mrel_weaken; auto|]. split.
  - rewrite (proj1 (proj2 (C105_same_program ord a' b'))). apply (commutes_rel doubles exact_numbers unit_literal literal_one literal_mul literal_ilevi); auto. exact literal_eqb.
  - unfold gmono_commutator. destruct P as [l l' P|e]; simpl; [|constructor]. destruct Q as [r r' Q|e]; simpl; [|constructor].
    constructor. destruct (mrel_weaken _ _ P) as (A & B & _). split; [exact A|]. split; [exact B|]. simpl. apply literal_sub; [apply P|apply Q].
Qed.
Print Assumptions C105_units_exact.

(** X0 Z2 with coefficient 0.1 + 0.2j and Y2 with coefficient 0.3 *)
Definition f01 : float := S754_finite false 7205759403792794 (-56).
Definition f02 : float := S754_finite false 7205759403792794 (-55).
Definition f03 : float := S754_finite false 5404319552844595 (-54).
Definition ex_xz : gmono fcomplex := mkgmono [0; 2] [mkgpauli 0 1 (f01, f02); mkgpauli 2 3 (f1, f0)] (cmul (cmul (f1, f0) (f01, f02)) (f1, f0)).
Definition ex_y2 : gmono fcomplex := mkgmono [2] [mkgpauli 2 2 (f03, f0)] (cmul (f1, f0) (f03, f0)).

Example C105_case : built ex_xz /\ built ex_y2 /\ below 3 ex_xz /\ below 3 ex_y2 /\
  gmono_commutes_with doubles (@rev nat) ex_xz ex_y2 = Ok false /\
  (exists l, gmono_mul doubles (@rev nat) ex_xz ex_y2 = Ok l /\ cnan (gm_coeff l) = false /\ czero (gm_coeff l) = false /\ cfinite (gm_coeff l) = true) /\
  unit_literal (f0, fm1) (gopp gi).
Proof.
  split; [exists [mkgpauli 0 1 (f01, f02); mkgpauli 2 3 (f1, f0)]; split; [repeat constructor|reflexivity]|].
  split; [exists [mkgpauli 2 2 (f03, f0)]; split; [repeat constructor|reflexivity]|].
  split; [repeat constructor|]. split; [repeat constructor|]. split; [vm_compute; reflexivity|]. split.
  - eexists. split; [vm_compute; reflexivity|]. repeat split.
  - right. right. right. split; [split; reflexivity|reflexivity].
Qed.
