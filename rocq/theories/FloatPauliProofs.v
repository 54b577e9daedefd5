(** Lemmas for C105: products of monomials over any kind of numbers. *)
From Coq Require Import ZArith Bool Floats.SpecFloat Lia Permutation Setoid Morphisms Arith List.
From Verif Require Import Py PauliModel PauliSem FloatPauliModel.
Import ListNotations.
Local Open Scope nat_scope.

(** ** Sorting *)

Fixpoint ninsert (x : nat) (l : list nat) : list nat :=
  match l with [] => [x] | y :: r => if Nat.leb x y then x :: l else y :: ninsert x r end.
Definition nsort (l : list nat) : list nat := fold_right ninsert [] l.

Lemma ninsert_comm x y l : ninsert x (ninsert y l) = ninsert y (ninsert x l).
Proof.
  induction l as [|z l IH]; simpl.
  - destruct (Nat.leb_spec x y), (Nat.leb_spec y x); try reflexivity; try lia. replace y with x by lia. reflexivity.
  - destruct (Nat.leb_spec y z), (Nat.leb_spec x z); simpl; destruct (Nat.leb_spec x y), (Nat.leb_spec y x); simpl;
      try (destruct (Nat.leb_spec x z); try lia); try (destruct (Nat.leb_spec y z); try lia); try reflexivity; try lia; try (replace y with x by lia; reflexivity); try (f_equal; exact IH).
Qed.
Lemma nsort_perm l l' : Permutation l l' -> nsort l = nsort l'.
Proof. induction 1; simpl; auto; [congruence|apply ninsert_comm|congruence]. Qed.
Lemma nsort_permutation l : Permutation (nsort l) l.
Proof.
  induction l as [|x l IH]; [constructor|]. simpl. rewrite <- IH at 2. generalize (nsort l) as s. intros s.
  induction s as [|y s IH2]; [reflexivity|]. simpl. destruct (Nat.leb _ _); [reflexivity|]. rewrite IH2. apply perm_swap.
Qed.

Section Gen.
Context {K : Type} (N : numbers K).

Lemma g_insert_map (F : nat -> gpauli K) s l : (forall i, ga (F i) = i) -> g_insert (F s) (map F l) = map F (ninsert s l).
Proof. intros H. induction l as [|x l IH]; [reflexivity|]. simpl. rewrite !H. destruct (Nat.leb s x); [reflexivity|]. simpl. f_equal. exact IH. Qed.
Lemma g_sort_map (F : nat -> gpauli K) l : (forall i, ga (F i) = i) -> g_sort (map F l) = map F (nsort l).
Proof. intros H. induction l as [|x l IH]; [reflexivity|]. simpl. rewrite IH. apply g_insert_map; auto. Qed.

(** a monomial as returned by the constructor; [good] are its coefficients *)
Definition gwf (good : K -> Prop) (m : gmono K) : Prop :=
  gm_locs m = map ga (gm_paulis m) /\ NoDup (gm_locs m) /\ Forall (fun p => gg p <= 3 /\ good (gc p)) (gm_paulis m).

Definition glook (m : gmono K) (i : nat) : option (gpauli K) := find (fun p => Nat.eqb (ga p) i) (gm_paulis m).
(** the letter on a site *)
Definition gletter (m : gmono K) (i : nat) : nat := match glook m i with Some p => gg p | None => 0 end.

Lemma glook_some good m i p : gwf good m -> glook m i = Some p -> ga p = i /\ gg p <= 3 /\ good (gc p) /\ In i (gm_locs m).
Proof.
  intros (L & _ & F) E. apply find_some in E as [I E]. apply Nat.eqb_eq in E. rewrite Forall_forall in F. destruct (F p I) as (A & B). repeat split; auto.
  rewrite L. subst. apply in_map; auto.
Qed.
Lemma glook_none good m i : gwf good m -> glook m i = None -> ~ In i (gm_locs m).
Proof.
  intros (L & _ & _) E I. rewrite L in I. apply in_map_iff in I as (p & Ep & Ip). pose proof (find_none _ _ E p Ip) as Q. simpl in Q. apply Nat.eqb_neq in Q. auto.
Qed.
Lemma glook_in good m i : gwf good m -> In i (gm_locs m) -> exists p, glook m i = Some p.
Proof. intros W I. destruct (glook m i) eqn:E; [eauto|]. exfalso. exact (glook_none _ _ _ W E I). Qed.

Lemma gmono_at_look good m i : gwf good m -> In i (gm_locs m) -> exists p, glook m i = Some p /\ gmono_at m i = Ok p.
Proof.
  intros (L & _ & _) I. unfold gmono_at, glook. rewrite L in *. clear L.
  induction (gm_paulis m) as [|p l IH]; [destruct I|]. simpl in *. destruct (Nat.eqb (ga p) i) eqn:E; [exists p; auto|].
  apply Nat.eqb_neq in E. destruct I as [I|I]; [contradiction|]. destruct (IH I) as (q & Q1 & Q2). exists q. split; [exact Q1|].
  destruct (list_index (map ga l) i) as [k|]; [simpl in *; exact Q2|discriminate].
Qed.

(** the product of two Paulis on one site, as a letter and a coefficient *)
Definition third (g h : nat) : nat := if Nat.eqb g h then 0 else if Nat.eqb g 0 then h else if Nat.eqb h 0 then g else 6 - g - h.
Definition clash (g h : nat) : bool := negb (Nat.eqb g 0) && negb (Nat.eqb h 0) && negb (Nat.eqb g h).
Definition pcoeff (p q : gpauli K) : K :=
  if clash (gg p) (gg q) then n_mul N (n_mul N (n_ilevi N (Z.of_nat (gg p)) (Z.of_nat (gg q)) (Z.of_nat (6 - gg p - gg q))) (gc p)) (gc q)
  else n_mul N (gc p) (gc q).
Lemma gPauli_mul_ok p q : ga p = ga q -> gg p <= 3 -> gg q <= 3 -> gPauli_mul N p q = Ok (mkgpauli (ga p) (third (gg p) (gg q)) (pcoeff p q)).
Proof.
  intros E H1 H2. unfold gPauli_mul, pcoeff, third, clash. rewrite E, Nat.eqb_refl. simpl negb. destruct p as [a g c], q as [b h d]. simpl in *. subst b. cbv iota.
  assert (G : g = 0 \/ g = 1 \/ g = 2 \/ g = 3) by lia. assert (G' : h = 0 \/ h = 1 \/ h = 2 \/ h = 3) by lia.
  destruct G as [-> | [-> | [-> | ->]]]; destruct G' as [-> | [-> | [-> | ->]]]; reflexivity.
Qed.

(** the factor of a * b on a site *)
Definition gat (a b : gmono K) (i : nat) : gpauli K :=
  match glook a i, glook b i with
  | Some p, Some q => mkgpauli i (third (gg p) (gg q)) (pcoeff p q)
  | Some p, None => mkgpauli i (gg p) (gc p)
  | None, Some q => mkgpauli i (gg q) (gc q)
  | None, None => mkgpauli i 0 (n_one N)
  end.
Lemma gat_alpha a b i : ga (gat a b i) = i.
Proof. unfold gat. destruct (glook a i), (glook b i); reflexivity. Qed.

Definition gunion (a b : gmono K) : list nat := gm_locs a ++ filter (fun i => negb (mem i (gm_locs a))) (gm_locs b).

Lemma gunion_NoDup good a b : gwf good a -> gwf good b -> NoDup (gunion a b).
Proof.
  intros (_ & Na & _) (_ & Nb & _). unfold gunion. apply NoDup_app_intro; auto; [apply filter_NoDup; auto|].
  intros x Hx Hf. apply filter_In in Hf as [_ Hf]. apply negb_true_iff in Hf. apply mem_nIn in Hf. contradiction.
Qed.
Lemma gunion_in a b i : In i (gunion a b) <-> In i (gm_locs a) \/ In i (gm_locs b).
Proof.
  unfold gunion. rewrite in_app_iff, filter_In, negb_true_iff, mem_nIn. destruct (in_dec Nat.eq_dec i (gm_locs a)); tauto.
Qed.
Lemma gunion_comm good a b : gwf good a -> gwf good b -> Permutation (gunion a b) (gunion b a).
Proof. intros Ha Hb. apply NoDup_Permutation; [eapply gunion_NoDup; eauto|eapply gunion_NoDup; eauto|]. intros x. rewrite !gunion_in. tauto. Qed.

Lemma gmono_mul_ok good ord a b : reorders ord -> gwf good a -> gwf good b ->
  let s := nsort (gunion a b) in
  gmono_mul N ord a b = Ok (mkgmono s (map (gat a b) s) (g_prod N (map (fun i => gc (gat a b i)) s))).
Proof.
  intros Ho Wa Wb s. pose proof Wa as (La & Na & Fa). pose proof Wb as (Lb & Nb & Fb). unfold gmono_mul. rewrite !nodup_fixed_point by auto.
  set (com := filter (fun i => mem i (gm_locs b)) (gm_locs a)). set (au := filter (fun i => negb (mem i com)) (gm_locs a)). set (bu := filter (fun i => negb (mem i com)) (gm_locs b)).
  assert (Hcom : forall i, In i com <-> In i (gm_locs a) /\ In i (gm_locs b)) by (intros i; unfold com; rewrite filter_In, mem_In; tauto).
  assert (Hau : forall i, In i au <-> In i (gm_locs a) /\ ~ In i (gm_locs b)) by (intros i; unfold au; rewrite filter_In, negb_true_iff, mem_nIn, Hcom; tauto).
  assert (Hbu : forall i, In i bu <-> In i (gm_locs b) /\ ~ In i (gm_locs a)) by (intros i; unfold bu; rewrite filter_In, negb_true_iff, mem_nIn, Hcom; tauto).
  rewrite (mapM_ok _ (gat a b) (ord com)).
  2: { intros i Hi. apply (Permutation_in _ (Ho com)), Hcom in Hi as [Hi1 Hi2].
       destruct (gmono_at_look _ _ _ Wa Hi1) as (p & P1 & P2). destruct (gmono_at_look _ _ _ Wb Hi2) as (q & Q1 & Q2). rewrite P2, Q2. simpl.
       destruct (glook_some _ _ _ _ Wa P1) as (A1 & A2 & _). destruct (glook_some _ _ _ _ Wb Q1) as (B1 & B2 & _).
       rewrite gPauli_mul_ok by (auto; congruence). unfold gat. rewrite P1, Q1, A1. reflexivity. }
  rewrite (mapM_ok _ (gat a b) (ord au)).
  2: { intros i Hi. apply (Permutation_in _ (Ho au)), Hau in Hi as [Hi1 Hi2]. destruct (gmono_at_look _ _ _ Wa Hi1) as (p & P1 & P2). rewrite P2. simpl.
       destruct (glook_some _ _ _ _ Wa P1) as (A1 & A2 & _). unfold gPauli_init. rewrite (proj2 (Nat.leb_le _ _) A2). unfold gat. rewrite P1.
       destruct (glook b i) as [q|] eqn:Q; [exfalso; apply Hi2; apply (glook_some _ _ _ _ Wb Q)|]. rewrite A1. reflexivity. }
  rewrite (mapM_ok _ (gat a b) (ord bu)).
  2: { intros i Hi. apply (Permutation_in _ (Ho bu)), Hbu in Hi as [Hi1 Hi2]. destruct (gmono_at_look _ _ _ Wb Hi1) as (p & P1 & P2). rewrite P2. simpl.
       destruct (glook_some _ _ _ _ Wb P1) as (A1 & A2 & _). unfold gPauli_init. rewrite (proj2 (Nat.leb_le _ _) A2). unfold gat. rewrite P1.
       destruct (glook a i) as [q|] eqn:Q; [exfalso; apply Hi2; apply (glook_some _ _ _ _ Wa Q)|]. rewrite A1. reflexivity. }
  simpl. rewrite <- !map_app. unfold gmono_init. rewrite (g_sort_map _ _ (gat_alpha a b)).
  assert (P : Permutation (ord com ++ ord au ++ ord bu) (gunion a b)).
  { unfold reorders in Ho. rewrite (Ho com), (Ho au), (Ho bu). apply NoDup_Permutation; [|eapply gunion_NoDup; eauto|].
    - apply NoDup_app_intro; [apply filter_NoDup; auto| |].
      + apply NoDup_app_intro; [apply filter_NoDup; auto|apply filter_NoDup; auto|]. intros x. rewrite Hau, Hbu. tauto.
      + intros x. rewrite in_app_iff, Hau, Hbu, Hcom. tauto.
    - intros x. rewrite !in_app_iff, Hau, Hbu, Hcom, gunion_in. destruct (in_dec Nat.eq_dec x (gm_locs a)), (in_dec Nat.eq_dec x (gm_locs b)); tauto. }
  rewrite (nsort_perm _ _ P). fold s. rewrite map_map. rewrite (map_ext _ (fun x => x) (gat_alpha a b)), map_id, map_length.
  rewrite nodup_fixed_point by (apply (Permutation_NoDup (Permutation_sym (nsort_permutation _))); eapply gunion_NoDup; eauto).
  rewrite Nat.eqb_refl, map_map. reflexivity.
Qed.

(** ** The two orders of the factors *)

Section Sign.
Context (sim : K -> K -> Prop) (neg : K -> K) (good : K -> Prop).
Context (sim_equiv : Equivalence sim) (mul_proper : Proper (sim ==> sim ==> sim) (n_mul N)) (neg_proper : Proper (sim ==> sim) neg).
Context (mul_neg_l : forall x y, sim (n_mul N (neg x) y) (neg (n_mul N x y))) (mul_neg_r : forall x y, sim (n_mul N x (neg y)) (neg (n_mul N x y))).
Context (neg_neg : forall x, sim (neg (neg x)) x) (mul_comm : forall x y, sim (n_mul N x y) (n_mul N y x)).
Context (anti : forall g h x y, 1 <= g <= 3 -> 1 <= h <= 3 -> g <> h -> good x -> good y ->
  sim (n_mul N (n_mul N (n_ilevi N (Z.of_nat h) (Z.of_nat g) (Z.of_nat (6 - g - h))) y) x)
      (neg (n_mul N (n_mul N (n_ilevi N (Z.of_nat g) (Z.of_nat h) (Z.of_nat (6 - g - h))) x) y))).

Definition sg (b : bool) (x : K) : K := if b then neg x else x.

Lemma sim_fold l (f g : nat -> K) (s : nat -> bool) : forall x y b, sim y (sg b x) -> (forall i, In i l -> sim (g i) (sg (s i) (f i))) ->
  sim (fold_left (n_mul N) (map g l) y) (sg (xorb b (Nat.odd (length (filter s l)))) (fold_left (n_mul N) (map f l) x)).
Proof.
  induction l as [|i l IH]; intros x y b E H; simpl; [rewrite xorb_false_r; exact E|].
  assert (Hi : sim (g i) (sg (s i) (f i))) by (apply H; left; auto).
  assert (E' : sim (n_mul N y (g i)) (sg (xorb b (s i)) (n_mul N x (f i)))).
  { rewrite E, Hi. destruct b, (s i); simpl; [rewrite mul_neg_l, mul_neg_r; apply neg_neg|apply mul_neg_l|apply mul_neg_r|reflexivity]. }
  rewrite (IH _ _ _ E') by (intros; apply H; right; auto).
  replace (xorb (xorb b (s i)) (Nat.odd (length (filter s l)))) with (xorb b (Nat.odd (length (if s i then i :: filter s l else filter s l)))); [reflexivity|].
  destruct (s i); simpl; [|rewrite xorb_false_r; reflexivity]. rewrite Nat.odd_succ, <- Nat.negb_odd, xorb_true_r. destruct b, (Nat.odd _); reflexivity.
Qed.

Lemma swap_at a b i : gwf good a -> gwf good b -> sim (gc (gat b a i)) (sg (clash (gletter a i) (gletter b i)) (gc (gat a b i))).
Proof.
  intros Wa Wb. unfold gat, gletter. destruct (glook a i) as [p|] eqn:P; destruct (glook b i) as [q|] eqn:Q.
  - destruct (glook_some _ _ _ _ Wa P) as (A1 & A2 & A3 & _). destruct (glook_some _ _ _ _ Wb Q) as (B1 & B2 & B3 & _). cbn [gc]. unfold pcoeff.
    assert (S : clash (gg q) (gg p) = clash (gg p) (gg q)) by (unfold clash; rewrite (Nat.eqb_sym (gg q) (gg p)); destruct (Nat.eqb (gg p) 0), (Nat.eqb (gg q) 0); reflexivity).
    rewrite S. destruct (clash (gg p) (gg q)) eqn:C; cbn [sg]; [|apply mul_comm]. unfold clash in C. rewrite !andb_true_iff, !negb_true_iff, !Nat.eqb_neq in C.
    replace (6 - gg q - gg p) with (6 - gg p - gg q) by lia. apply anti; auto; lia.
  - unfold clash. rewrite andb_false_r. reflexivity.
  - unfold clash. reflexivity.
  - reflexivity.
Qed.

(** the number of sites where the two monomials have different letters other than I *)
Definition gclashes (n : nat) (a b : gmono K) : nat := length (filter (fun i => clash (gletter a i) (gletter b i)) (seq 0 n)).

Lemma gclash_sites a b n : gwf good a -> gwf good b -> (forall i, In i (gm_locs a) -> i < n) ->
  length (filter (fun i => clash (gletter a i) (gletter b i)) (nsort (gunion a b))) = gclashes n a b.
Proof.
  intros Wa Wb H. unfold gclashes. apply Permutation_length. apply NoDup_Permutation.
  - apply filter_NoDup. apply (Permutation_NoDup (Permutation_sym (nsort_permutation _))). eapply gunion_NoDup; eauto.
  - apply filter_NoDup. apply seq_NoDup.
  - intros x. rewrite !filter_In, in_seq. assert (I : clash (gletter a x) (gletter b x) = true -> In x (gm_locs a)).
    { unfold gletter. destruct (glook a x) as [p|] eqn:P; [intros _; apply (glook_some _ _ _ _ Wa P)|unfold clash; simpl; discriminate]. }
    split; intros [H1 H2]; split; auto.
    + specialize (H x (I H2)). lia.
    + apply (Permutation_in _ (Permutation_sym (nsort_permutation _))). apply gunion_in. left. auto.
Qed.

Lemma products_sign ord a b n : reorders ord -> gwf good a -> gwf good b -> (forall i, In i (gm_locs a) -> i < n) ->
  exists l r, gmono_mul N ord a b = Ok l /\ gmono_mul N ord b a = Ok r /\ gm_locs r = gm_locs l /\
    sim (gm_coeff r) (sg (Nat.odd (gclashes n a b)) (gm_coeff l)).
Proof.
  intros Ho Wa Wb H. rewrite (gmono_mul_ok good ord a b Ho Wa Wb), (gmono_mul_ok good ord b a Ho Wb Wa). eexists. eexists. split; [reflexivity|]. split; [reflexivity|]. simpl.
  rewrite (nsort_perm _ _ (gunion_comm _ _ _ Wb Wa)). split; [reflexivity|]. rewrite <- (gclash_sites a b n Wa Wb H). unfold g_prod.
  pose proof (sim_fold (nsort (gunion a b)) (fun i => gc (gat a b i)) (fun i => gc (gat b a i)) (fun i => clash (gletter a i) (gletter b i)) (n_one N) (n_one N) false) as S.
  rewrite xorb_false_l in S. apply S; [simpl; reflexivity|]. intros i _. apply swap_at; auto.
Qed.
End Sign.
End Gen.
