(** Lemmas for C105: what is read off a monomial, and numbers related by exactness. *)
From Coq Require Import ZArith QArith Qcanon Bool Floats.SpecFloat Lia Permutation Setoid Morphisms Arith List.
From Verif Require Import Py StarRing Matrix GaussQ PauliSpec PauliModel PauliSem PauliProofs FloatPauliModel FloatPauliProofs FloatLaws.
Import ListNotations.
Local Open Scope nat_scope.

(** a monomial as returned by the constructor *)
Definition gfresh {K} (N : numbers K) (good : K -> Prop) (m : gmono K) : Prop :=
  exists ps, Forall (fun p => gg p <= 3 /\ good (gc p)) ps /\ gmono_init N ps = Ok m.

Lemma g_insert_perm {K} p (l : list (gpauli K)) : Permutation (g_insert p l) (p :: l).
Proof. induction l as [|q l IH]; [reflexivity|]. simpl. destruct (Nat.leb _ _); [reflexivity|]. rewrite IH. apply perm_swap. Qed.
Lemma g_sort_perm {K} (l : list (gpauli K)) : Permutation (g_sort l) l.
Proof. induction l as [|q l IH]; [reflexivity|]. simpl. rewrite g_insert_perm, IH. reflexivity. Qed.

Lemma gfresh_wf {K} (N : numbers K) good m : gfresh N good m -> gwf good m.
Proof.
  intros (ps & F & E). unfold gmono_init in E. destruct (Nat.eqb _ _) eqn:L; [|discriminate]. injection E as <-. apply Nat.eqb_eq in L.
  repeat split; simpl.
  - rewrite <- (map_length ga) in L. apply (@NoDup_incl_NoDup _ (nodup Nat.eq_dec (map ga (g_sort ps)))); [apply NoDup_nodup|lia|].
    intros x Hx. apply nodup_In in Hx. auto.
  - rewrite Forall_forall in *. intros p Hp. apply F. apply (Permutation_in _ (g_sort_perm ps)); auto.
Qed.

(** ** The Pauli string of a monomial as a monomial with coefficient one *)
Definition unit_pauli {K} (p : gpauli K) : pauli := {| p_alpha := ga p; p_gamma := gg p; p_coeff := g1 |}.
Definition unit_mono {K} (m : gmono K) : mono := {| m_locs := gm_locs m; m_paulis := map unit_pauli (gm_paulis m); m_coeff := g1 |}.

Lemma unit_insert {K} (p : gpauli K) l : insert_alpha (unit_pauli p) (map unit_pauli l) = map unit_pauli (g_insert p l).
Proof. induction l as [|q l IH]; [reflexivity|]. simpl. destruct (Nat.leb _ _); [reflexivity|]. simpl. f_equal. exact IH. Qed.
Lemma unit_sort {K} (l : list (gpauli K)) : sort_alpha (map unit_pauli l) = map unit_pauli (g_sort l).
Proof. induction l as [|q l IH]; [reflexivity|]. cbn [map sort_alpha fold_right g_sort]. fold (sort_alpha (map unit_pauli l)). rewrite IH. apply unit_insert. Qed.
Lemma gprod_ones {A} (l : list A) : gprod (map (fun _ => g1) l) = g1.
Proof. unfold gprod. induction l as [|x l IH]; [reflexivity|]. simpl. replace (gmul g1 g1) with g1 by (apply gq_eq; simpl; ring). exact IH. Qed.

Lemma unit_fresh {K} (N : numbers K) good m : gfresh N good m -> fresh (unit_mono m).
Proof.
  intros (ps & F & E). exists (map unit_pauli ps). split.
  - rewrite Forall_map. eapply Forall_impl; [|exact F]. intros p [H _]. exists (Z.of_nat (ga p)), (GInt (Z.of_nat (gg p))), (CNum g1).
    unfold Pauli_init. replace (Z.of_nat (ga p) <? 0)%Z with false by (symmetry; apply Z.ltb_ge; lia).
    assert (G : gg p = 0 \/ gg p = 1 \/ gg p = 2 \/ gg p = 3) by lia. unfold unit_pauli. rewrite Nat2Z.id.
    destruct G as [-> | [-> | [-> | ->]]]; reflexivity.
  - unfold gmono_init in E. unfold mono_init. rewrite unit_sort, !map_map. cbn [unit_pauli p_alpha p_coeff].
    rewrite map_length. replace (map (fun x => ga x) (g_sort ps)) with (map ga (g_sort ps)) by reflexivity. destruct (Nat.eqb _ _) eqn:L; [|discriminate].
    injection E as <-. unfold unit_mono. simpl. rewrite gprod_ones. reflexivity.
Qed.
Lemma unit_letter {K} (m : gmono K) i : letter_on (unit_mono m) i = gletter m i.
Proof.
  unfold letter_on, gletter, glook, unit_mono. simpl. induction (gm_paulis m) as [|p l IH]; [reflexivity|]. simpl. destruct (Nat.eqb _ _); [reflexivity|exact IH].
Qed.

(** the matrix of the letters on n sites *)
Definition string_mat {K} (n : nat) (m : gmono K) : mat gq := pword (map (gletter m) (seq 0 n)).
Definition below {K} (n : nat) (m : gmono K) : Prop := Forall (fun i => i < n) (gm_locs m).

Lemma g1_neq : g1 <> g0. Proof. intros H. apply (f_equal gre) in H. discriminate. Qed.

Lemma string_commute {K} (N : numbers K) good a b n : gfresh N good a -> gfresh N good b -> below n a -> below n b ->
  (Nat.odd (gclashes n a b) = false <-> meq (2 ^ n) (mmul (2 ^ n) (string_mat n a) (string_mat n b)) (mmul (2 ^ n) (string_mat n b) (string_mat n a))).
Proof.
  intros Fa Fb Ba Bb. assert (SB : forall m, gfresh N good m -> below n m -> sites_below n (unit_mono m)).
  { intros m Fm Bm. destruct (gfresh_wf _ _ _ Fm) as (L & _). unfold sites_below, unit_mono. simpl. rewrite Forall_map. unfold below in Bm. rewrite L, Forall_map in Bm. exact Bm. }
  destruct (commutes_spec (fun l => l) (unit_mono a) (unit_mono b) n) as (r & _ & H1 & H2);
    [intros l; reflexivity|eapply unit_fresh; eauto|eapply unit_fresh; eauto|auto|auto|].
  specialize (H2 g1_neq g1_neq). assert (C : clashes n (unit_mono a) (unit_mono b) = gclashes n a b).
  { unfold clashes, gclashes. f_equal. apply filter_ext. intros i. rewrite !unit_letter. reflexivity. }
  rewrite C in H2. rewrite <- Nat.negb_even, negb_false_iff, Nat.even_spec, <- H2, H1.
  assert (D : forall m : gmono K, meq (2 ^ n) (denote n (unit_mono m)) (string_mat n m)).
  { intros m. unfold denote, string_mat, mono_string. rewrite (map_ext _ _ (unit_letter m)). intros i j Hi Hj. unfold mscale. cbn. apply gq_eq; simpl; ring. }
  assert (P : forall x y : gmono K, meq (2 ^ n) (mmul (2 ^ n) (denote n (unit_mono x)) (denote n (unit_mono y))) (mmul (2 ^ n) (string_mat n x) (string_mat n y))).
  { intros x y. apply mmul_proper; apply D. }
  rewrite !P. reflexivity.
Qed.

(** ** Two kinds of numbers at once *)
Section Rel.
Context {K L : Type} (N : numbers K) (M : numbers L) (R : K -> L -> Prop).
Context (R_one : R (n_one N) (n_one M)) (R_mul : forall x x' y y', R x x' -> R y y' -> R (n_mul N x y) (n_mul M x' y')).
Context (R_ilevi : forall g h, 1 <= g <= 3 -> 1 <= h <= 3 -> g <> h ->
  R (n_ilevi N (Z.of_nat g) (Z.of_nat h) (Z.of_nat (6 - g - h))) (n_ilevi M (Z.of_nat g) (Z.of_nat h) (Z.of_nat (6 - g - h)))).

Definition prel (p : gpauli K) (q : gpauli L) : Prop := ga p = ga q /\ gg p = gg q /\ R (gc p) (gc q).
Definition mrel (a : gmono K) (b : gmono L) : Prop :=
  gm_locs a = gm_locs b /\ Forall2 prel (gm_paulis a) (gm_paulis b) /\ R (gm_coeff a) (gm_coeff b).

Lemma prod_rel l l' : Forall2 R l l' -> R (g_prod N l) (g_prod M l').
Proof.
  intros H. unfold g_prod. assert (G : forall x x', R x x' -> R (fold_left (n_mul N) l x) (fold_left (n_mul M) l' x')); [|apply G; auto].
  induction H as [|y y' l l' H1 H2 IH]; intros x x' Hx; simpl; auto.
Qed.
Lemma insert_rel p p' l l' : prel p p' -> Forall2 prel l l' -> Forall2 prel (g_insert p l) (g_insert p' l').
Proof.
  intros Hp H. induction H as [|q q' l l' H1 H2 IH]; simpl; [constructor; auto|]. destruct Hp as (A1 & A2 & A3). destruct H1 as (B1 & B2 & B3). rewrite A1, B1.
  destruct (Nat.leb _ _); repeat constructor; auto.
Qed.
Lemma sort_rel l l' : Forall2 prel l l' -> Forall2 prel (g_sort l) (g_sort l').
Proof. induction 1; simpl; [constructor|apply insert_rel; auto]. Qed.
Lemma rel_locs l l' : Forall2 prel l l' -> map ga l = map ga l'.
Proof. induction 1 as [|p q l l' (A & _ & _) H IH]; simpl; congruence. Qed.
Lemma rel_coeffs l l' : Forall2 prel l l' -> Forall2 R (map gc l) (map gc l').
Proof. induction 1 as [|p q l l' (_ & _ & A) H IH]; simpl; constructor; auto. Qed.

(** results of calls *)
Inductive rres {A B} (S : A -> B -> Prop) : res A -> res B -> Prop :=
| rres_ok x y : S x y -> rres S (Ok x) (Ok y)
| rres_err e : rres S (Err e) (Err e).

Lemma init_rel l l' : Forall2 prel l l' -> rres mrel (gmono_init N l) (gmono_init M l').
Proof.
  intros H. apply sort_rel in H. unfold gmono_init. rewrite <- (map_length ga (g_sort l)), <- (map_length ga (g_sort l')), <- (rel_locs _ _ H). destruct (Nat.eqb _ _); [|constructor].
  constructor. split; [reflexivity|]. split; [exact H|]. simpl. apply prod_rel, rel_coeffs; auto.
Qed.
Lemma at_rel a b i : mrel a b -> rres prel (gmono_at a i) (gmono_at b i).
Proof.
  intros (A & B & _). unfold gmono_at. rewrite A. destruct (list_index (gm_locs b) i) as [k|e]; simpl; [|constructor].
  revert k. induction B as [|p q l l' H1 H2 IH]; intros [|k]; simpl; try constructor; auto.
Qed.
Lemma pmul_rel p q p' q' : prel p p' -> prel q q' -> gg p <= 3 -> gg q <= 3 -> rres prel (gPauli_mul N p q) (gPauli_mul M p' q').
Proof.
  destruct p as [a g c], q as [b h d], p' as [a' g' c'], q' as [b' h' d']. intros (A1 & A2 & A3) (B1 & B2 & B3) G H. simpl in *. subst a' b' g' h'.
  destruct (Nat.eq_dec a b) as [->|Ne].
  - rewrite !gPauli_mul_ok by auto. constructor. split; [reflexivity|]. split; [reflexivity|]. unfold pcoeff. simpl. destruct (clash g h) eqn:C; [|apply R_mul; auto].
    apply R_mul; auto. apply R_mul; auto. unfold clash in C. rewrite !andb_true_iff, !negb_true_iff, !Nat.eqb_neq in C. apply R_ilevi; lia.
  - unfold gPauli_mul. simpl. apply Nat.eqb_neq in Ne. rewrite Ne. constructor.
Qed.
Lemma pcopy_rel p p' : prel p p' -> rres prel (gPauli_init (ga p) (gg p) (gc p)) (gPauli_init (ga p') (gg p') (gc p')).
Proof. intros (A1 & A2 & A3). unfold gPauli_init. rewrite A2. destruct (Nat.leb _ 3); constructor. repeat split; auto. Qed.

Lemma mapM_rel {A B C} (S : B -> C -> Prop) (f : A -> res B) (g : A -> res C) l : (forall x, rres S (f x) (g x)) -> rres (Forall2 S) (mapM f l) (mapM g l).
Proof.
  intros H. induction l as [|x l IH]; simpl; [constructor; constructor|]. destruct (H x) as [y z Hy|e]; simpl; [|constructor].
  destruct IH as [y' z' Hy'|e]; simpl; constructor. constructor; auto.
Qed.
Lemma bind_rel {A B A' B'} (S : A -> A' -> Prop) (T : B -> B' -> Prop) (x : res A) (x' : res A') (f : A -> res B) (f' : A' -> res B') :
  rres S x x' -> (forall y y', S y y' -> rres T (f y) (f' y')) -> rres T (bind x f) (bind x' f').
Proof. intros [y y' H|e] G; simpl; [auto|constructor]. Qed.

Lemma mul_rel ord a b a' b' : mrel a a' -> mrel b b' -> Forall (fun p => gg p <= 3) (gm_paulis a) -> Forall (fun p => gg p <= 3) (gm_paulis b) ->
  rres mrel (gmono_mul N ord a b) (gmono_mul M ord a' b').
Proof.
  intros Ha Hb Ga Gb. unfold gmono_mul. destruct Ha as (La & Ha') eqn:E1. destruct Hb as (Lb & Hb') eqn:E2. clear E1 E2. rewrite <- La, <- Lb.
  assert (AT : forall m (G : Forall (fun p : gpauli K => gg p <= 3) (gm_paulis m)) i p, gmono_at m i = Ok p -> gg p <= 3).
  { intros m G i p. unfold gmono_at. destruct (list_index _ _) as [k|]; [|discriminate]. simpl. destruct (nth_error _ k) eqn:E; [|discriminate]. intros H. injection H as <-.
    apply nth_error_In in E. rewrite Forall_forall in G. auto. }
  assert (AA : forall i, rres prel (gmono_at a i) (gmono_at a' i)) by (intros; apply at_rel; split; auto).
  assert (BB : forall i, rres prel (gmono_at b i) (gmono_at b' i)) by (intros; apply at_rel; split; auto).
  eapply bind_rel; [apply mapM_rel; intros i|intros l1 l1' H1].
  { pose proof (AA i) as P. pose proof (BB i) as Q. pose proof (AT a Ga i) as P'. pose proof (AT b Gb i) as Q'.
    destruct P as [p p' P|e]; simpl; [|constructor]. destruct Q as [q q' Q|e]; simpl; [|constructor]. apply pmul_rel; auto. }
  eapply bind_rel; [apply mapM_rel; intros i; eapply bind_rel; [apply AA|intros; apply pcopy_rel; auto]|intros l2 l2' H2].
  eapply bind_rel; [apply mapM_rel; intros i; eapply bind_rel; [apply BB|intros; apply pcopy_rel; auto]|intros l3 l3' H3].
  apply init_rel. apply Forall2_app; auto. apply Forall2_app; auto.
Qed.

Lemma commutes_rel ord a b a' b' : mrel a a' -> mrel b b' -> Forall (fun p => gg p <= 3) (gm_paulis a) -> Forall (fun p => gg p <= 3) (gm_paulis b) ->
  (forall x x' y y', R x x' -> R y y' -> n_eqb N x y = n_eqb M x' y') ->
  gmono_commutes_with N ord a b = gmono_commutes_with M ord a' b'.
Proof.
  intros Ha Hb Ga Gb He. unfold gmono_commutes_with. pose proof (mul_rel ord a b a' b' Ha Hb Ga Gb) as P. pose proof (mul_rel ord b a b' a' Hb Ha Gb Ga) as Q.
  destruct P as [l l' (_ & _ & P)|e]; simpl; [|reflexivity]. destruct Q as [r r' (_ & _ & Q)|e]; simpl; [|reflexivity]. f_equal. apply He; auto.
Qed.
End Rel.
