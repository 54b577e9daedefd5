(** C104: Pauli objects shared between monomials. *)
From Coq Require Import String ZArith QArith Qcanon Bool Lia Permutation Arith List.
From Verif Require Import Py StarRing GaussQ PauliModel PauliSem PauliProofs2 PauliHeapModel.
Import ListNotations.
Local Open Scope nat_scope.

(** what a user reads off the monomial object [m]: locations, the Paulis and coeff *)
Definition view (st : store) (m : nat) : res mono :=
  do x <- mget st m;
  do ps <- mapM (pget (st_paulis st)) (h_refs x);
  Ok {| m_locs := h_locs x; m_paulis := ps; m_coeff := h_coeff x |}.

(** monomial [m] holds the Pauli object [r] at position [k] *)
Definition holds_at (st : store) (m k r : nat) : Prop :=
  exists x, mget st m = Ok x /\ nth_error (h_refs x) k = Some r.
Definition holds (st : store) (m r : nat) : Prop := exists k, holds_at st m k r.
(** two monomials with no Pauli object in common *)
Definition separate (st : store) (a b : nat) : Prop := forall r, holds st a r -> ~ holds st b r.

(** ** Reading references *)

Lemma pget_app h e r p : pget h r = Ok p -> pget (h ++ e) r = Ok p.
Proof.
  unfold pget. destruct (nth_error h r) eqn:E; [|discriminate]. intros [= <-].
  rewrite nth_error_app1; [rewrite E; reflexivity|]. apply nth_error_Some. congruence.
Qed.
Lemma mapM_pget_app h e l ps : mapM (pget h) l = Ok ps -> mapM (pget (h ++ e)) l = Ok ps.
Proof.
  revert ps. induction l as [|r l IH]; simpl; auto. intros ps H.
  apply bind_ok in H as (p & Hp & H). apply bind_ok in H as (qs & Hq & H).
  rewrite (pget_app _ e _ _ Hp). simpl. rewrite (IH _ Hq). exact H.
Qed.
Lemma mapM_length {A B} (f : A -> res B) l ys : mapM f l = Ok ys -> length ys = length l.
Proof.
  revert ys. induction l as [|x l IH]; simpl; intros ys H; [injection H; intros; subst; auto|].
  apply bind_ok in H as (y & Hy & H). apply bind_ok in H as (zs & Hz & H). injection H; intros; subst. simpl. f_equal; auto.
Qed.
Lemma mapM_nth {A B} (f : A -> res B) l ys k x : mapM f l = Ok ys -> nth_error l k = Some x ->
  exists y, nth_error ys k = Some y /\ f x = Ok y.
Proof.
  revert ys k. induction l as [|a l IH]; simpl; intros ys k H E; [destruct k; discriminate|].
  apply bind_ok in H as (y & Hy & H). apply bind_ok in H as (zs & Hz & H). injection H; intros; subst.
  destruct k; simpl in E; [injection E; intros; subst; exists y; auto|]. apply (IH _ _ Hz E).
Qed.
Lemma mapM_app {A B} (f : A -> res B) l l' ys ys' : mapM f l = Ok ys -> mapM f l' = Ok ys' -> mapM f (l ++ l') = Ok (ys ++ ys').
Proof.
  revert ys. induction l as [|a l IH]; simpl; intros ys H H'; [injection H; intros; subst; exact H'|].
  apply bind_ok in H as (y & Hy & H). apply bind_ok in H as (zs & Hz & H). injection H; intros; subst.
  rewrite Hy. simpl. rewrite (IH _ Hz H'). reflexivity.
Qed.
Lemma mapM_in {A B} (f : A -> res B) l ys : (forall x, In x l -> exists y, f x = Ok y) -> mapM f l = Ok ys \/ exists zs, mapM f l = Ok zs.
Proof.
  intros H. right. induction l as [|a l IH]; [exists []; reflexivity|].
  destruct (H a (or_introl eq_refl)) as (y & Hy). destruct IH as (zs & Hz); [intros; apply H; right; auto|].
  exists (y :: zs). simpl. rewrite Hy. simpl. rewrite Hz. reflexivity.
Qed.

(** ** The constructor *)

Lemma sort_refs_snd l : map snd (sort_refs l) = sort_alpha (map snd l).
Proof.
  induction l as [|x l IH]; [reflexivity|]. simpl. rewrite <- IH. generalize (sort_refs l) as s. intros s.
  induction s as [|y s IH2]; [reflexivity|]. simpl. destruct (Nat.leb _ _); [reflexivity|]. simpl. f_equal. exact IH2.
Qed.
Lemma sort_refs_perm l : Permutation (sort_refs l) l.
Proof.
  induction l as [|x l IH]; [constructor|]. simpl. rewrite <- IH at 2. generalize (sort_refs l) as s. intros s.
  induction s as [|y s IH2]; [reflexivity|]. simpl. destruct (Nat.leb _ _); [reflexivity|]. rewrite IH2. apply perm_swap.
Qed.
Lemma combine_in (h : pheap) refs ps r p : mapM (pget h) refs = Ok ps -> In (r, p) (combine refs ps) -> pget h r = Ok p.
Proof.
  revert ps. induction refs as [|a l IH]; simpl; intros ps H I; [destruct I|].
  apply bind_ok in H as (y & Hy & H). apply bind_ok in H as (zs & Hz & H). injection H; intros; subst.
  destruct I as [I|I]; [injection I; intros; subst; auto|]. apply (IH _ Hz I).
Qed.
Lemma combine_fst {A B} (l : list A) (l' : list B) : length l' = length l -> map fst (combine l l') = l.
Proof. revert l'. induction l; intros [|] H; simpl in *; try discriminate; auto. f_equal; auto. Qed.
Lemma combine_snd {A B} (l : list A) (l' : list B) : length l' = length l -> map snd (combine l l') = l'.
Proof. revert l'. induction l; intros [|] H; simpl in *; try discriminate; auto. f_equal; auto. Qed.
Lemma reread h s : (forall r p, In (r, p) s -> pget h r = Ok p) -> mapM (pget h) (map fst s) = Ok (map snd s).
Proof.
  induction s as [|[r p] s IH]; intros H; [reflexivity|]. simpl. rewrite (H r p) by (left; auto). simpl.
  rewrite IH by (intros; apply H; right; auto). reflexivity.
Qed.

Definition hview (h : pheap) (x : hmono) : res mono :=
  do ps <- mapM (pget h) (h_refs x);
  Ok {| m_locs := h_locs x; m_paulis := ps; m_coeff := h_coeff x |}.

Lemma nodup_length_NoDup l : length (nodup Nat.eq_dec l) = length l -> NoDup l.
Proof.
  induction l as [|a l IH]; [constructor|]. simpl. intros H. pose proof (NoDup_incl_length (NoDup_nodup Nat.eq_dec l) (fun x Hx => proj1 (nodup_In Nat.eq_dec l x) Hx)) as L.
  destruct (in_dec Nat.eq_dec a l) as [I|I]; [lia|]. simpl in H. constructor; [exact I|apply IH; lia].
Qed.

Lemma hmono_init_value h refs ps : mapM (pget h) refs = Ok ps ->
  match hmono_init h refs with
  | Ok x => exists v, mono_init ps = Ok v /\ hview h x = Ok v /\ Permutation (h_refs x) refs /\ NoDup (h_refs x)
  | Err e => mono_init ps = Err e
  end.
Proof.
  intros H. unfold hmono_init. rewrite H. simpl. pose proof (mapM_length _ _ _ H) as L.
  set (s := sort_refs (combine refs ps)). assert (S : map snd s = sort_alpha ps) by (unfold s; rewrite sort_refs_snd, combine_snd; auto).
  assert (Sl : map (fun x => p_alpha (snd x)) s = map p_alpha (sort_alpha ps)) by (rewrite <- S, map_map; reflexivity).
  assert (Sc : map (fun x => p_coeff (snd x)) s = map p_coeff (sort_alpha ps)) by (rewrite <- S, map_map; reflexivity).
  unfold mono_init. rewrite Sl, Sc. replace (length s) with (length (sort_alpha ps)) by (rewrite <- S, map_length; reflexivity).
  destruct (Nat.eqb _ _) eqn:E; [|reflexivity]. eexists. split; [reflexivity|].
  assert (G : forall r p, In (r, p) s -> pget h r = Ok p).
  { intros r p I. apply (Permutation_in _ (sort_refs_perm _)) in I. apply (combine_in _ _ _ _ _ H I). }
  split; [|split].
  - unfold hview. simpl. rewrite (reread h s G), S. reflexivity.
  - simpl. rewrite <- (combine_fst refs ps L) at 1. apply Permutation_map. apply sort_refs_perm.
  - simpl. apply Nat.eqb_eq in E. assert (N : NoDup (map (fun x => p_alpha (snd x)) s)).
    { apply nodup_length_NoDup. rewrite Sl, E, map_length. reflexivity. }
    clear - N G. induction s as [|[r p] s IH]; [constructor|]. simpl in *. inversion N as [|? ? N1 N2]; subst. constructor.
    + intros I. apply N1. apply in_map_iff in I as ([r' p'] & E & I). simpl in E. subst. apply in_map_iff. exists (r, p'). split; [|exact I]. simpl.
      pose proof (G r p (or_introl eq_refl)) as A. pose proof (G r p' (or_intror I)) as B. congruence.
    + apply IH; auto.
Qed.

(** ** Products *)

Lemma hmono_at_value h e x v i : hview h x = Ok v -> hmono_at (h ++ e) x i = mono_at v i.
Proof.
  unfold hview. intros H. apply bind_ok in H as (ps & Hp & H). injection H; intros; subst. clear H.
  unfold hmono_at, mono_at. simpl. destruct (list_index (h_locs x) i) as [k|e']; [simpl|reflexivity]. unfold mono_getitem. simpl.
  destruct (nth_error (h_refs x) k) as [r|] eqn:E.
  - destruct (mapM_nth _ _ _ _ _ Hp E) as (y & E1 & E2). rewrite E1. apply pget_app; exact E2.
  - assert (N : nth_error ps k = None) by (apply nth_error_None; rewrite (mapM_length _ _ _ Hp); apply nth_error_None; exact E). rewrite N. reflexivity.
Qed.

Lemma alloc_loop_value f g h new sites : (forall e i, f (h ++ e) i = g i) ->
  alloc_loop f h new sites = do ps <- mapM g sites; Ok (h ++ ps, new ++ seq (length h) (length ps)).
Proof.
  revert h new. induction sites as [|i r IH]; intros h new H; simpl; [rewrite !app_nil_r; reflexivity|].
  rewrite <- (app_nil_r h) at 1. rewrite (H [] i). destruct (g i) as [p|]; [simpl|reflexivity].
  rewrite IH by (intros e j; rewrite <- app_assoc; apply H). destruct (mapM g r) as [ps|]; [simpl|reflexivity].
  rewrite <- !app_assoc. rewrite app_length. simpl. rewrite Nat.add_1_r. reflexivity.
Qed.

Lemma mapM_new h ps e : mapM (pget (h ++ ps ++ e)) (seq (length h) (length ps)) = Ok ps.
Proof.
  revert h. induction ps as [|p ps IH]; intros h; [reflexivity|]. simpl.
  unfold pget at 1. rewrite nth_error_app2 by lia. rewrite Nat.sub_diag. simpl.
  replace (h ++ p :: ps ++ e) with ((h ++ [p]) ++ ps ++ e) by (rewrite <- app_assoc; reflexivity).
  replace (S (length h)) with (length (h ++ [p])) by (rewrite app_length; simpl; lia). rewrite IH. reflexivity.
Qed.

Lemma hmono_mul_value ord h a b va vb : hview h a = Ok va -> hview h b = Ok vb ->
  match hmono_mul ord h a b with
  | Ok (h', x) => exists e v, h' = h ++ e /\ mono_mul ord va vb = Ok v /\ hview h' x = Ok v /\ NoDup (h_refs x) /\
                    forall r, In r (h_refs x) -> length h <= r < length h'
  | Err e => mono_mul ord va vb = Err e
  end.
Proof.
  intros Ha Hb. unfold hmono_mul, mono_mul.
  assert (La : m_locs va = h_locs a) by (unfold hview in Ha; apply bind_ok in Ha as (? & _ & Ha); injection Ha; intros; subst; reflexivity).
  assert (Lb : m_locs vb = h_locs b) by (unfold hview in Hb; apply bind_ok in Hb as (? & _ & Hb); injection Hb; intros; subst; reflexivity).
  rewrite La, Lb. set (c1 := ord _). set (c2 := ord _). set (c3 := ord _).
  rewrite (alloc_loop_value _ (fun i => do p <- mono_at va i; do q <- mono_at vb i; Pauli_mul p q)).
  2: { intros e i. rewrite (hmono_at_value _ _ _ _ _ Ha), (hmono_at_value _ _ _ _ _ Hb). reflexivity. }
  destruct (mapM _ c1) as [l1|]; [simpl|reflexivity].
  rewrite (alloc_loop_value _ (fun i => do p <- mono_at va i; Pauli_copy p)).
  2: { intros e i. rewrite <- app_assoc, (hmono_at_value _ _ _ _ _ Ha). reflexivity. }
  destruct (mapM _ c2) as [l2|]; [simpl|reflexivity].
  rewrite (alloc_loop_value _ (fun i => do p <- mono_at vb i; Pauli_copy p)).
  2: { intros e i. rewrite <- !app_assoc, (hmono_at_value _ _ _ _ _ Hb). reflexivity. }
  destruct (mapM _ c3) as [l3|]; [simpl|reflexivity].
  rewrite <- !app_assoc. set (h' := h ++ l1 ++ l2 ++ l3).
  set (refs := seq (length h) (length l1) ++ seq (length (h ++ l1)) (length l2) ++ seq (length (h ++ l1 ++ l2)) (length l3)).
  assert (M : mapM (pget h') refs = Ok (l1 ++ l2 ++ l3)).
  { unfold refs, h'. apply mapM_app; [apply mapM_new|]. apply mapM_app.
    - rewrite app_assoc. apply mapM_new.
    - replace (h ++ l1 ++ l2 ++ l3) with ((h ++ l1 ++ l2) ++ l3 ++ []) by (rewrite app_nil_r, <- !app_assoc; reflexivity). apply mapM_new. }
  pose proof (hmono_init_value h' refs _ M) as V. destruct (hmono_init h' refs) as [x|]; [|exact V]. simpl.
  destruct V as (v & V1 & V2 & V3 & V4). exists (l1 ++ l2 ++ l3), v. repeat (split; auto); apply (Permutation_in _ V3) in H; unfold refs, h' in *;
    rewrite !in_app_iff, !in_seq, !app_length in *; lia.
Qed.

Lemma hview_app h e x v : hview h x = Ok v -> hview (h ++ e) x = Ok v.
Proof. unfold hview. intros H. apply bind_ok in H as (ps & Hp & H). rewrite (mapM_pget_app _ e _ _ Hp). exact H. Qed.

Lemma hmono_commutator_value ord h a b va vb : hview h a = Ok va -> hview h b = Ok vb ->
  match hmono_commutator ord h a b with
  | Ok (h', x) => exists e v, h' = h ++ e /\ mono_commutator ord va vb = Ok v /\ hview h' x = Ok v /\ NoDup (h_refs x) /\
                    forall r, In r (h_refs x) -> length h <= r < length h'
  | Err e => mono_commutator ord va vb = Err e
  end.
Proof.
  intros Ha Hb. unfold hmono_commutator, mono_commutator. pose proof (hmono_mul_value ord h a b va vb Ha Hb) as L.
  destruct (hmono_mul ord h a b) as [[h1 l]|]; [|rewrite L; reflexivity]. destruct L as (e & v & -> & E & V & N & R). simpl. rewrite E. simpl.
  pose proof (hmono_mul_value ord (h ++ e) b a vb va (hview_app _ e _ _ Hb) (hview_app _ e _ _ Ha)) as L2.
  destruct (hmono_mul ord (h ++ e) b a) as [[h2 r]|]; [|rewrite L2; reflexivity]. destruct L2 as (e2 & w & -> & E2 & V2 & N2 & R2). simpl. rewrite E2. simpl.
  exists (e ++ e2). eexists. split; [rewrite <- app_assoc; reflexivity|]. split; [reflexivity|]. split; [|split].
  - unfold hview. simpl. pose proof (hview_app _ e2 _ _ V) as V'. unfold hview in V'. apply bind_ok in V' as (ps & Hp & V'). rewrite Hp. simpl.
    injection V'; intros <-. unfold set_coeff. simpl. unfold hview in V2. apply bind_ok in V2 as (ps2 & _ & V2). injection V2; intros <-. reflexivity.
  - exact N.
  - intros x Hx. simpl in Hx. specialize (R x Hx). rewrite !app_length in *. lia.
Qed.

(** ** Conjugation *)

Lemma pset_length h r p : length (pset h r p) = length h.
Proof. revert r. induction h as [|q h IH]; intros [|r]; simpl; auto. Qed.
Lemma pget_pset h r p s : r < length h -> pget (pset h r p) s = if Nat.eqb s r then Ok p else pget h s.
Proof.
  revert r s. induction h as [|q h IH]; intros r s L; [simpl in L; lia|]. destruct r as [|r]; destruct s as [|s]; try reflexivity.
  simpl in L. simpl pset. change (pget (q :: pset h r p) (S s)) with (pget (pset h r p) s). rewrite IH by lia. reflexivity.
Qed.
Lemma pget_lt h r p : pget h r = Ok p -> r < length h.
Proof. unfold pget. destruct (nth_error h r) eqn:E; [|discriminate]. intros _. apply nth_error_Some. congruence. Qed.
Lemma pget_ok h r : r < length h -> exists p, pget h r = Ok p.
Proof. unfold pget. intros L. destruct (nth_error h r) eqn:E; [eauto|]. apply nth_error_None in E. lia. Qed.

Definition conj_res (x : res pauli) : res pauli := do p <- x; Ok (Pauli_conj p).

Lemma conj_loop_value h refs h' : NoDup refs -> conj_loop h refs = Ok h' ->
  length h' = length h /\ forall s, pget h' s = if mem s refs then conj_res (pget h s) else pget h s.
Proof.
  revert h. induction refs as [|r t IH]; intros h N H; simpl in H; [injection H; intros; subst; auto|].
  inversion N as [|? ? N1 N2]; subst. unfold pconj in H. apply bind_ok in H as (h1 & H1 & H). apply bind_ok in H1 as (p & Hp & H1). injection H1; intros; subst.
  destruct (IH _ N2 H) as (L & G). rewrite pset_length in L. split; [exact L|]. intros s. rewrite G, pget_pset by (eapply pget_lt; eauto).
  simpl mem. fold (mem s t). destruct (Nat.eqb s r) eqn:E; simpl; [|reflexivity]. apply Nat.eqb_eq in E. subst s.
  destruct (mem r t) eqn:M; [apply mem_In in M; contradiction|]. rewrite Hp. reflexivity.
Qed.

Lemma conj_loop_ok h refs : (forall r, In r refs -> r < length h) -> exists h', conj_loop h refs = Ok h'.
Proof.
  revert h. induction refs as [|r t IH]; intros h H; simpl; [eauto|].
  destruct (pget_ok h r) as (p & Hp); [apply H; left; auto|]. unfold pconj. rewrite Hp. simpl. apply IH.
  intros s Hs. rewrite pset_length. apply H; right; auto.
Qed.

(** ** Reachable stores *)

Definition inv (st : store) : Prop :=
  forall m x, mget st m = Ok x -> NoDup (h_refs x) /\ forall r, In r (h_refs x) -> r < length (st_paulis st).

Lemma inv_view st m x : inv st -> mget st m = Ok x -> exists v, hview (st_paulis st) x = Ok v.
Proof.
  intros I E. destruct (I m x E) as (_ & L). destruct (mapM_in (pget (st_paulis st)) (h_refs x) []) as [H|(zs & H)].
  - intros r Hr. apply pget_ok; auto.
  - eexists. unfold hview. rewrite H. reflexivity.
  - eexists. unfold hview. rewrite H. reflexivity.
Qed.

Lemma mget_app st h y m x : mget (mkstore h (st_monos st ++ [y])) m = Ok x ->
  mget st m = Ok x \/ m = length (st_monos st) /\ x = y.
Proof.
  unfold mget. simpl. destruct (Nat.lt_ge_cases m (length (st_monos st))) as [L|L].
  - rewrite nth_error_app1 by auto. auto.
  - rewrite nth_error_app2 by auto. destruct (m - length (st_monos st)) as [|k] eqn:D; simpl.
    + intros [= ->]. right. split; [lia|reflexivity].
    + destruct k; discriminate.
Qed.
Lemma mget_old st h l m x : mget st m = Ok x -> mget (mkstore h (st_monos st ++ l)) m = Ok x.
Proof.
  unfold mget. simpl. destruct (nth_error (st_monos st) m) eqn:E; [|discriminate]. intros [= <-].
  rewrite nth_error_app1; [rewrite E; reflexivity|]. apply nth_error_Some. congruence.
Qed.
Lemma mget_new st h y : mget (mkstore h (st_monos st ++ [y])) (length (st_monos st)) = Ok y.
Proof. unfold mget. simpl. rewrite nth_error_app2, Nat.sub_diag by auto. reflexivity. Qed.

Lemma set_hcoeff_nth l m c k : nth_error (set_hcoeff l m c) k =
  match nth_error l k with Some x => Some (if Nat.eqb k m then {| h_locs := h_locs x; h_refs := h_refs x; h_coeff := c |} else x) | None => None end.
Proof.
  revert m k. induction l as [|x l IH]; intros m k; [destruct m, k; reflexivity|]. destruct m as [|m], k as [|k]; simpl; auto.
  destruct (nth_error l k); reflexivity.
Qed.

Lemma mapM_lt h refs ps : mapM (pget h) refs = Ok ps -> forall r, In r refs -> r < length h.
Proof.
  intros H r Hr. apply In_nth_error in Hr as (k & Hk). destruct (mapM_nth _ _ _ _ _ H Hk) as (y & _ & Hy). eapply pget_lt; eauto.
Qed.

Lemma exec_inv ord st s st' : inv st -> exec ord st s = Ok st' -> inv st'.
Proof.
  intros I H. destruct s; simpl in H.
  - apply bind_ok in H as (p & _ & H). injection H; intros <-. intros m x E. destruct (I m x E) as (N & L). split; [exact N|].
    simpl. intros r Hr. rewrite app_length. specialize (L r Hr). lia.
  - apply bind_ok in H as (x & _ & H). apply bind_ok in H as (y & _ & H). apply bind_ok in H as (z & _ & H). injection H; intros <-.
    intros m w E. destruct (I m w E) as (N & L). split; [exact N|]. simpl. intros r Hr. rewrite app_length. specialize (L r Hr). lia.
  - apply bind_ok in H as (y & Hy & H). injection H; intros <-. intros m x E. apply mget_app in E as [E|[_ ->]]; [exact (I m x E)|].
    simpl. unfold hmono_init in Hy. destruct (mapM (pget (st_paulis st)) refs) as [ps|] eqn:M; [|discriminate].
    pose proof (hmono_init_value (st_paulis st) refs ps M) as V. unfold hmono_init in V. rewrite M in V. simpl in V, Hy. rewrite Hy in V.
    destruct V as (v & _ & _ & P & N). split; [exact N|]. intros r Hr. apply (Permutation_in _ P) in Hr. exact (mapM_lt _ _ _ M r Hr).
  - apply bind_ok in H as (x & Hx & H). apply bind_ok in H as (y & Hy & H). apply bind_ok in H as ([h' z] & Hz & H). injection H; intros <-.
    destruct (inv_view _ _ _ I Hx) as (vx & Vx). destruct (inv_view _ _ _ I Hy) as (vy & Vy).
    pose proof (hmono_mul_value ord _ _ _ _ _ Vx Vy) as V. rewrite Hz in V. destruct V as (e & v & -> & _ & _ & N & R).
    intros m w E. simpl. apply mget_app in E as [E|[_ ->]].
    + destruct (I m w E) as (N' & L). split; [exact N'|]. intros r Hr. rewrite app_length. specialize (L r Hr). lia.
    + split; [exact N|]. intros r Hr. apply R. exact Hr.
  - apply bind_ok in H as (x & Hx & H). apply bind_ok in H as (y & Hy & H). apply bind_ok in H as ([h' z] & Hz & H). injection H; intros <-.
    destruct (inv_view _ _ _ I Hx) as (vx & Vx). destruct (inv_view _ _ _ I Hy) as (vy & Vy).
    pose proof (hmono_commutator_value ord _ _ _ _ _ Vx Vy) as V. rewrite Hz in V. destruct V as (e & v & -> & _ & _ & N & R).
    intros m w E. simpl. apply mget_app in E as [E|[_ ->]].
    + destruct (I m w E) as (N' & L). split; [exact N'|]. intros r Hr. rewrite app_length. specialize (L r Hr). lia.
    + split; [exact N|]. intros r Hr. apply R. exact Hr.
  - apply bind_ok in H as (h' & Hh & H). injection H; intros <-. unfold pconj in Hh. apply bind_ok in Hh as (q & _ & Hh). injection Hh; intros <-.
    intros m w E. simpl. rewrite pset_length. exact (I m w E).
  - apply bind_ok in H as (x & Hx & H). apply bind_ok in H as (h' & Hh & H). injection H; intros <-.
    destruct (conj_loop_value _ _ _ (proj1 (I _ _ Hx)) Hh) as (L & _). intros k w E. simpl. rewrite L. exact (I k w E).
  - apply bind_ok in H as (x & Hx & H). injection H; intros <-. intros k w E. unfold mget in E. simpl in E. rewrite set_hcoeff_nth in E.
    destruct (nth_error (st_monos st) k) as [w'|] eqn:E'; [|discriminate]. assert (E2 : mget st k = Ok w') by (unfold mget; rewrite E'; reflexivity).
    destruct (I k w' E2) as (N & L). simpl. destruct (Nat.eqb k m); injection E; intros <-; split; auto.
Qed.

Lemma run_from_inv ord prog : forall st st', inv st -> run_from ord st prog = Ok st' -> inv st'.
Proof.
  induction prog as [|s r IH]; intros st st' I H; simpl in H; [injection H; intros <-; exact I|].
  apply bind_ok in H as (st1 & H1 & H). apply (IH st1 st'); [|exact H]. eapply exec_inv; eauto.
Qed.
Lemma run_inv ord prog st : run ord prog = Ok st -> inv st.
Proof. apply run_from_inv. intros m x. unfold mget. simpl. destruct m; discriminate. Qed.

Lemma view_hview st m x : mget st m = Ok x -> view st m = hview (st_paulis st) x.
Proof. unfold view, hview. intros ->. reflexivity. Qed.
Lemma view_mget st m v : view st m = Ok v -> exists x, mget st m = Ok x /\ hview (st_paulis st) x = Ok v.
Proof. unfold view, hview. intros H. apply bind_ok in H as (x & E & H). eauto. Qed.

(** The values of PauliModel.v are what a program reads off its objects: the
    results of the constructor, of products and of commutators are those of
    the value model, exceptions included. *)
Theorem C104_values : forall ord prog st, run ord prog = Ok st ->
  let new := length (st_monos st) in
  (forall m, m < new -> exists v, view st m = Ok v) /\
  (forall refs ps, mapM (pget (st_paulis st)) refs = Ok ps ->
     match exec ord st (SMono refs) with Ok st' => view st' new = mono_init ps | Err e => mono_init ps = Err e end) /\
  (forall a b va vb, view st a = Ok va -> view st b = Ok vb ->
     match exec ord st (SMul a b) with Ok st' => view st' new = mono_mul ord va vb | Err e => mono_mul ord va vb = Err e end) /\
  (forall a b va vb, view st a = Ok va -> view st b = Ok vb ->
     match exec ord st (SCommutator a b) with Ok st' => view st' new = mono_commutator ord va vb | Err e => mono_commutator ord va vb = Err e end) /\
  (forall a va, view st a = Ok va -> exists st', exec ord st (SConjMono a) = Ok st' /\ view st' a = Ok (mono_conj va)) /\
  (forall a va c, view st a = Ok va -> exists st', exec ord st (SSetCoeff a c) = Ok st' /\ view st' a = Ok (set_coeff va c)).
Proof.
  intros ord prog st H new. pose proof (run_inv _ _ _ H) as I. clear H. split; [|split; [|split; [|split; [|split]]]].
  - intros m L. destruct (nth_error (st_monos st) m) as [x|] eqn:E; [|apply nth_error_None in E; unfold new in L; lia].
    assert (E2 : mget st m = Ok x) by (unfold mget; rewrite E; reflexivity). rewrite (view_hview _ _ _ E2). eapply inv_view; eauto.
  - intros refs ps M. simpl. pose proof (hmono_init_value _ refs ps M) as V. destruct (hmono_init (st_paulis st) refs) as [x|]; [simpl|exact V].
    destruct V as (v & V1 & V2 & _). rewrite V1. rewrite (view_hview _ _ _ (mget_new st _ x)). exact V2.
  - intros a b va vb Va Vb. apply view_mget in Va as (x & Ex & Vx). apply view_mget in Vb as (y & Ey & Vy). simpl. rewrite Ex, Ey. simpl.
    pose proof (hmono_mul_value ord _ _ _ _ _ Vx Vy) as V. destruct (hmono_mul ord (st_paulis st) x y) as [[h z]|]; [simpl|exact V].
    destruct V as (e & v & -> & V1 & V2 & _). rewrite V1. rewrite (view_hview _ _ _ (mget_new st _ z)). exact V2.
  - intros a b va vb Va Vb. apply view_mget in Va as (x & Ex & Vx). apply view_mget in Vb as (y & Ey & Vy). simpl. rewrite Ex, Ey. simpl.
    pose proof (hmono_commutator_value ord _ _ _ _ _ Vx Vy) as V. destruct (hmono_commutator ord (st_paulis st) x y) as [[h z]|]; [simpl|exact V].
    destruct V as (e & v & -> & V1 & V2 & _). rewrite V1. rewrite (view_hview _ _ _ (mget_new st _ z)). exact V2.
  - intros a va Va. apply view_mget in Va as (x & Ex & Vx). destruct (I a x Ex) as (N & L). destruct (conj_loop_ok _ _ L) as (h' & Hh).
    simpl. rewrite Ex. simpl. rewrite Hh. simpl. eexists. split; [reflexivity|].
    assert (Ex' : mget (mkstore h' (st_monos st)) a = Ok x) by exact Ex. rewrite (view_hview _ _ _ Ex'). simpl.
    destruct (conj_loop_value _ _ _ N Hh) as (_ & G). unfold hview in *. apply bind_ok in Vx as (ps & Hp & Vx). injection Vx; intros <-.
    assert (Hp' : mapM (pget h') (h_refs x) = Ok (map Pauli_conj ps)).
    { assert (G' : forall r, In r (h_refs x) -> pget h' r = conj_res (pget (st_paulis st) r)).
      { intros r Hr. rewrite G. apply mem_In in Hr. rewrite Hr. reflexivity. }
      clear - Hp G'. revert ps Hp. induction (h_refs x) as [|r l IH]; simpl; intros ps Hp; [injection Hp; intros <-; reflexivity|].
      apply bind_ok in Hp as (p & E & Hp). apply bind_ok in Hp as (qs & E2 & Hp). injection Hp; intros <-.
      rewrite G' by (left; auto). rewrite E. simpl. rewrite (IH (fun r Hr => G' r (or_intror Hr)) _ E2). reflexivity. }
    rewrite Hp'. reflexivity.
  - intros a va c Va. apply view_mget in Va as (x & Ex & Vx). simpl. rewrite Ex. simpl. eexists. split; [reflexivity|].
    assert (Ex' : mget (mkstore (st_paulis st) (set_hcoeff (st_monos st) a c)) a = Ok {| h_locs := h_locs x; h_refs := h_refs x; h_coeff := c |}).
    { unfold mget in *. simpl. rewrite set_hcoeff_nth. destruct (nth_error (st_monos st) a); [|discriminate]. injection Ex; intros <-. rewrite Nat.eqb_refl. reflexivity. }
    rewrite (view_hview _ _ _ Ex'). unfold hview in *. simpl. apply bind_ok in Vx as (ps & Hp & Vx). rewrite Hp. simpl. injection Vx; intros <-. reflexivity.
Qed.
Print Assumptions C104_values.

(** C104 *)

(** Which statements change what is read off an existing monomial. *)
Lemma exec_mget ord st s st' m x : exec ord st s = Ok st' -> mget st m = Ok x ->
  exists x', mget st' m = Ok x' /\ h_locs x' = h_locs x /\ h_refs x' = h_refs x /\ ((forall c, s <> SSetCoeff m c) -> x' = x).
Proof.
  intros H E. destruct s; simpl in H.
  1, 6, 7: exists x; repeat (apply bind_ok in H as (? & _ & H)); injection H; intros <-; repeat split; auto.
  1: exists x; repeat (apply bind_ok in H as (? & _ & H)); injection H; intros <-; repeat split; auto.
  1, 2, 3: exists x; repeat (apply bind_ok in H as (? & _ & H)); injection H; intros <-; repeat split; auto; apply mget_old; exact E.
  apply bind_ok in H as (y & _ & H). injection H; intros <-. unfold mget in *. simpl. rewrite set_hcoeff_nth.
  destruct (nth_error (st_monos st) m) as [z|]; [|discriminate]. injection E; intros <-. destruct (Nat.eqb m m0) eqn:E'; eexists; repeat split.
  intros Q. apply Nat.eqb_eq in E'. subst. exfalso. apply (Q c). reflexivity.
Qed.

(** the Pauli object [r] is conjugated by the statement *)
Definition conjugates (st : store) (s : stmt) (r : nat) : Prop :=
  s = SConjPauli r \/ exists m, s = SConjMono m /\ holds st m r.

Lemma exec_pget ord st s st' r p : inv st -> exec ord st s = Ok st' -> pget (st_paulis st) r = Ok p ->
  exists p', pget (st_paulis st') r = Ok p' /\ (conjugates st s r -> p' = Pauli_conj p) /\ (~ conjugates st s r -> p' = p).
Proof.
  intros I H E. destruct s; simpl in H.
  - apply bind_ok in H as (q & _ & H). injection H; intros <-. exists p. simpl. split; [apply pget_app; exact E|]. split; [|auto]. intros [Q|(m & Q & _)]; discriminate.
  - apply bind_ok in H as (x & _ & H). apply bind_ok in H as (y & _ & H). apply bind_ok in H as (z & _ & H). injection H; intros <-.
    exists p. simpl. split; [apply pget_app; exact E|]. split; [|auto]. intros [Q|(m & Q & _)]; discriminate.
  - apply bind_ok in H as (q & _ & H). injection H; intros <-. exists p. simpl. split; [exact E|]. split; [|auto]. intros [Q|(m & Q & _)]; discriminate.
  - apply bind_ok in H as (x & Hx & H). apply bind_ok in H as (y & Hy & H). apply bind_ok in H as ([h' z] & Hz & H). injection H; intros <-.
    destruct (inv_view _ _ _ I Hx) as (vx & Vx). destruct (inv_view _ _ _ I Hy) as (vy & Vy).
    pose proof (hmono_mul_value ord _ _ _ _ _ Vx Vy) as V. rewrite Hz in V. destruct V as (e & v & -> & _).
    exists p. simpl. split; [apply pget_app; exact E|]. split; [|auto]. intros [Q|(m & Q & _)]; discriminate.
  - apply bind_ok in H as (x & Hx & H). apply bind_ok in H as (y & Hy & H). apply bind_ok in H as ([h' z] & Hz & H). injection H; intros <-.
    destruct (inv_view _ _ _ I Hx) as (vx & Vx). destruct (inv_view _ _ _ I Hy) as (vy & Vy).
    pose proof (hmono_commutator_value ord _ _ _ _ _ Vx Vy) as V. rewrite Hz in V. destruct V as (e & v & -> & _).
    exists p. simpl. split; [apply pget_app; exact E|]. split; [|auto]. intros [Q|(m & Q & _)]; discriminate.
  - apply bind_ok in H as (h' & Hh & H). injection H; intros <-. unfold pconj in Hh. apply bind_ok in Hh as (q & Hq & Hh). injection Hh; intros <-. simpl.
    rewrite pget_pset by (eapply pget_lt; eauto). destruct (Nat.eqb r p0) eqn:Q.
    + apply Nat.eqb_eq in Q. subst p0. rewrite E in Hq. injection Hq; intros <-. eexists. split; [reflexivity|]. split; auto. intros Nc. exfalso. apply Nc. left. reflexivity.
    + exists p. split; [exact E|]. split; [|auto]. apply Nat.eqb_neq in Q. intros [X|(m & X & _)]; [injection X; congruence|discriminate].
  - apply bind_ok in H as (x & Hx & H). apply bind_ok in H as (h' & Hh & H). injection H; intros <-. simpl.
    destruct (conj_loop_value _ _ _ (proj1 (I _ _ Hx)) Hh) as (L & G). rewrite G, E. destruct (mem r (h_refs x)) eqn:M.
    + exists (Pauli_conj p). split; [reflexivity|]. split; auto. intros Nc. exfalso. apply Nc. right. exists m. split; auto.
      apply mem_In in M. apply In_nth_error in M as (k & Hk). exists k, x. auto.
    + exists p. split; [reflexivity|]. split; [|auto]. intros [X|(m' & X & k & y & Hy & Hk)]; [discriminate|]. injection X; intros <-.
      rewrite Hx in Hy. injection Hy; intros <-. apply nth_error_In in Hk. apply mem_In in Hk. congruence.
  - apply bind_ok in H as (x & _ & H). injection H; intros <-. exists p. simpl. split; [exact E|]. split; [|auto]. intros [Q|(m' & Q & _)]; discriminate.
Qed.

(** What holds in general: a statement changes the Paulis of an existing monomial
    exactly at the objects it conjugates, and the locations never. *)
Theorem C104_effect_partial : forall ord prog st s st', run ord prog = Ok st -> exec ord st s = Ok st' ->
  forall m v, view st m = Ok v ->
  exists v', view st' m = Ok v' /\ m_locs v' = m_locs v /\ length (m_paulis v') = length (m_paulis v) /\
    ((forall c, s <> SSetCoeff m c) -> m_coeff v' = m_coeff v) /\
    forall k r p, holds_at st m k r -> nth_error (m_paulis v) k = Some p ->
      exists p', nth_error (m_paulis v') k = Some p' /\
        (conjugates st s r -> p' = Pauli_conj p) /\ (~ conjugates st s r -> p' = p).
Proof.
  intros ord prog st s st' R H m v V. pose proof (run_inv _ _ _ R) as I. pose proof (exec_inv _ _ _ _ I H) as I'.
  apply view_mget in V as (x & E & V). destruct (exec_mget _ _ _ _ _ _ H E) as (x' & E' & L1 & L2 & L3).
  destruct (inv_view _ _ _ I' E') as (v' & V'). exists v'. rewrite (view_hview _ _ _ E'). split; [exact V'|].
  unfold hview in V, V'. apply bind_ok in V as (ps & Hp & V). apply bind_ok in V' as (ps' & Hp' & V'). injection V; intros <-. injection V'; intros <-. simpl.
  split; [exact L1|]. split; [rewrite (mapM_length _ _ _ Hp), (mapM_length _ _ _ Hp'), L2; reflexivity|]. split; [intros Q; rewrite (L3 Q); reflexivity|].
  intros k r p (y & Ey & Hk) Hn. rewrite E in Ey. injection Ey; intros <-. destruct (mapM_nth _ _ _ _ _ Hp Hk) as (p1 & E1 & G1). rewrite Hn in E1. injection E1; intros <-.
  destruct (exec_pget _ _ _ _ _ _ I H G1) as (p' & Gp & C1 & C2). rewrite L2 in Hp'. destruct (mapM_nth _ _ _ _ _ Hp' Hk) as (p2 & E2 & G2).
  rewrite Gp in G2. injection G2; intros <-. exists p'. auto.
Qed.
Print Assumptions C104_effect_partial.

(** A statement that conjugates no object of [m] and does not assign to its coeff
    leaves [m] as it is; products and commutators hold objects of their own. *)
Theorem C104_products_partial : forall ord prog st s st', run ord prog = Ok st -> exec ord st s = Ok st' ->
  (forall m v, view st m = Ok v -> (forall c, s <> SSetCoeff m c) -> (forall r, holds st m r -> ~ conjugates st s r) -> view st' m = Ok v) /\
  (forall a b, s = SMul a b \/ s = SCommutator a b ->
     let new := length (st_monos st) in
     (forall m, m <> new -> separate st' new m) /\ (forall r, holds st' new r -> forall p, pget (st_paulis st) r <> Ok p)).
Proof.
  intros ord prog st s st' R H. pose proof (run_inv _ _ _ R) as I. split.
  - intros m v V Q N. destruct (C104_effect_partial _ _ _ _ _ R H m v V) as (v' & V' & A1 & A2 & A3 & A4). rewrite V'. f_equal.
    assert (P : m_paulis v' = m_paulis v).
    { apply view_mget in V as (x & E & V). unfold hview in V. apply bind_ok in V as (ps & Hp & V). injection V; intros <-. simpl in *.
      apply (nth_ext _ _ {| p_alpha := 0; p_gamma := 0; p_coeff := g0 |} {| p_alpha := 0; p_gamma := 0; p_coeff := g0 |} A2). intros k Lk. rewrite A2 in Lk. pose proof Lk as Lk2.
      rewrite (mapM_length _ _ _ Hp) in Lk. destruct (nth_error (h_refs x) k) as [r|] eqn:Er; [|apply nth_error_None in Er; lia].
      destruct (nth_error ps k) as [p|] eqn:Ep; [|apply nth_error_None in Ep; lia].
      destruct (A4 k r p) as (p' & G1 & _ & G2); [exists x; auto|exact Ep|]. rewrite G2 in G1 by (apply N; exists k, x; auto).
      rewrite (nth_error_nth _ _ _ G1), (nth_error_nth _ _ _ Ep). reflexivity. }
    specialize (A3 Q). destruct v, v'. simpl in *. congruence.
  - intros a b Hs new. assert (Z : exists h' z e, st' = mkstore h' (st_monos st ++ [z]) /\ h' = st_paulis st ++ e /\ (forall r, In r (h_refs z) -> length (st_paulis st) <= r < length h')).
    { destruct Hs as [-> | ->]; simpl in H; apply bind_ok in H as (x & Hx & H); apply bind_ok in H as (y & Hy & H); apply bind_ok in H as ([h' z] & Hz & H); injection H; intros <-;
        destruct (inv_view _ _ _ I Hx) as (vx & Vx); destruct (inv_view _ _ _ I Hy) as (vy & Vy).
      - pose proof (hmono_mul_value ord _ _ _ _ _ Vx Vy) as V. rewrite Hz in V. destruct V as (e & v & E & _ & _ & _ & G). exists h', z, e. auto.
      - pose proof (hmono_commutator_value ord _ _ _ _ _ Vx Vy) as V. rewrite Hz in V. destruct V as (e & v & E & _ & _ & _ & G). exists h', z, e. auto. }
    destruct Z as (h' & z & e & -> & -> & G). split.
    + intros m Nm r (k & w & Ew & Hk) (k' & w' & Ew' & Hk'). unfold new in Ew. rewrite mget_new in Ew. injection Ew; intros <-.
      apply mget_app in Ew' as [Ew'|[Q _]]; [|contradiction]. apply nth_error_In in Hk, Hk'. destruct (I _ _ Ew') as (_ & L). specialize (L r Hk'). specialize (G r Hk). lia.
    + intros r (k & w & Ew & Hk) p Hp. unfold new in Ew. rewrite mget_new in Ew. injection Ew; intros <-. apply nth_error_In in Hk. specialize (G r Hk). apply pget_lt in Hp. lia.
Qed.
Print Assumptions C104_products_partial.

(** A program that never passes a Pauli object to a second monomial: the objects
    given to PauliMonomial are not held by any monomial yet. *)
Definition careful (st : store) (s : stmt) : Prop :=
  forall refs, s = SMono refs -> forall r m, In r refs -> ~ holds st m r.
Inductive careful_run (ord : list nat -> list nat) : list stmt -> store -> Prop :=
| careful_nil : careful_run ord [] (mkstore [] [])
| careful_snoc prog st s st' : careful_run ord prog st -> careful st s -> exec ord st s = Ok st' -> careful_run ord (prog ++ [s]) st'.

Lemma run_from_app ord prog s : forall st st1 st', run_from ord st prog = Ok st1 -> exec ord st1 s = Ok st' -> run_from ord st (prog ++ [s]) = Ok st'.
Proof.
  induction prog as [|t r IH]; intros st st1 st' H E; simpl in *; [injection H; intros; subst; rewrite E; reflexivity|].
  apply bind_ok in H as (st2 & H2 & H). rewrite H2. simpl. eapply IH; eauto.
Qed.
Lemma careful_is_run ord prog st : careful_run ord prog st -> run ord prog = Ok st.
Proof. induction 1 as [|prog st s st' _ IH _ E]; [reflexivity|]. unfold run in *. eapply run_from_app; eauto. Qed.

(** In such a program no two monomials share an object, so that conj changes the
    monomial it is called on and no other. *)
Theorem C104_separate_partial : forall ord prog st, careful_run ord prog st ->
  (forall a b, a <> b -> separate st a b) /\
  (forall a b st' v, a <> b -> exec ord st (SConjMono a) = Ok st' -> view st b = Ok v -> view st' b = Ok v).
Proof.
  intros ord prog st C. assert (S : forall a b, a <> b -> separate st a b).
  { induction C as [|prog st s st' C IH Cs E]; intros a b Nab.
    - intros r (k & x & Hx & _). unfold mget in Hx. simpl in Hx. destruct a; discriminate.
    - pose proof (careful_is_run _ _ _ C) as R. pose proof (run_inv _ _ _ R) as I.
      assert (Old : forall m, m <> length (st_monos st) -> forall r, holds st' m r -> holds st m r).
      { intros m Nm r (k & x & Hx & Hk). assert (Ex : exists y, mget st m = Ok y).
        { unfold mget in *. destruct (nth_error (st_monos st) m) as [y|] eqn:Ey; [eauto|]. exfalso. destruct (nth_error (st_monos st') m) as [x'|] eqn:Ex; [|discriminate].
          apply nth_error_None in Ey. assert (Lm : m < length (st_monos st')) by (apply nth_error_Some; congruence).
          assert (Le : length (st_monos st') <= S (length (st_monos st))).
          { destruct s; simpl in E; repeat (apply bind_ok in E as (? & _ & E)); injection E; intros <-; simpl; rewrite ?app_length; simpl; try lia.
            clear. enough (length (set_hcoeff (st_monos st) m0 c) = length (st_monos st)) by lia. generalize (st_monos st) as l. revert m0. intros m0 l. revert m0. induction l as [|z l IH]; intros [|m0]; simpl; auto. }
          lia. }
        destruct Ex as (y & Ey). destruct (exec_mget _ _ _ _ _ _ E Ey) as (x' & Ex' & _ & Lr & _). rewrite Ex' in Hx. injection Hx; intros ->. exists k, y. rewrite <- Lr. auto. }
      assert (New : forall m, m <> length (st_monos st) -> separate st' (length (st_monos st)) m).
      { intros m Nm. destruct s as [al ga co|p q|refs|p q|p q|p|p|p c].
        4, 5: apply (proj2 (C104_products_partial _ _ _ _ _ R E) p q); auto.
        3: { intros r (k & x & Hx & Hk) Hm. simpl in E. apply bind_ok in E as (z & Hz & E). injection E; intros <-. rewrite mget_new in Hx. injection Hx; intros ->.
             apply (Cs refs eq_refl r m); [|apply Old; auto].
             unfold hmono_init in Hz. destruct (mapM (pget (st_paulis st)) refs) as [ps|] eqn:M; [|discriminate].
             pose proof (hmono_init_value (st_paulis st) refs ps M) as V. unfold hmono_init in V. rewrite M in V. simpl in V, Hz. rewrite Hz in V.
             destruct V as (v & _ & _ & P & _). apply nth_error_In in Hk. apply (Permutation_in _ P Hk). }
        all: intros r (k & x & Hx & Hk) _; simpl in E; repeat (apply bind_ok in E as (? & _ & E)); injection E; intros <-; unfold mget in Hx; simpl in Hx;
          rewrite ?set_hcoeff_nth in Hx; rewrite (proj2 (nth_error_None (st_monos st) (length (st_monos st))) (le_n _)) in Hx; discriminate. }
      destruct (Nat.eq_dec a (length (st_monos st))) as [->|Na]; [apply New; auto|].
      destruct (Nat.eq_dec b (length (st_monos st))) as [->|Nb].
      + intros r Ha Hb. exact (New a Na r Hb Ha).
      + intros r Ha Hb. exact (IH a b Nab r (Old a Na r Ha) (Old b Nb r Hb)). }
  split; [exact S|]. intros a b st' v Nab E V. pose proof (careful_is_run _ _ _ C) as R.
  apply (proj1 (C104_products_partial _ _ _ _ _ R E) b v V); [discriminate|]. intros r Hr [Q|(m & Q & Hm)]; [discriminate|]. injection Q; intros <-. exact (S a b Nab r Hm Hr).
Qed.
Print Assumptions C104_separate_partial.

(** False in general:
      p = Pauli(0, 'Y', 1j); a = PauliMonomial([p]); b = PauliMonomial([p])
      z = PauliMonomial([Pauli(0, 'Z')])
    After b.conj() the Pauli of a has the coefficient -1j, and a * z has the coefficient
    1 instead of -1, whatever the iteration order of the sets. *)
Definition shared_prog : list stmt :=
  [SPauli 0 (GStr "Y") (CNum gi); SMono [0]; SMono [0]; SPauli 0 (GStr "Z") (CNum g1); SMono [1]].

Theorem C104_shared_refuted : forall ord, reorders ord ->
  exists st st' v v' w w' vz, run ord shared_prog = Ok st /\ exec ord st (SConjMono 1) = Ok st' /\
    view st 0 = Ok v /\ view st' 0 = Ok v' /\ map p_coeff (m_paulis v) = [gi] /\ map p_coeff (m_paulis v') = [gopp gi] /\
    view st 2 = Ok vz /\ view st' 2 = Ok vz /\
    mono_mul ord v vz = Ok w /\ mono_mul ord v' vz = Ok w' /\ m_coeff w = gopp g1 /\ m_coeff w' = g1.
Proof.
  intros ord H. assert (E1 : ord [0] = [0]) by (apply Permutation_length_1_inv; symmetry; apply H).
  assert (E0 : ord [] = []) by (apply Permutation_nil; symmetry; apply H).
  do 7 eexists. do 8 (split; [vm_compute; reflexivity|]).
  unfold mono_mul. cbn [m_locs nodup in_dec list_rec list_rect Nat.eq_dec nat_rec nat_rect sumbool_rec sumbool_rect filter mem existsb Nat.eqb negb orb].
  rewrite E1, E0. repeat (split; [vm_compute; reflexivity|]). vm_compute; reflexivity.
Qed.
Print Assumptions C104_shared_refuted.

(** a product of two monomials that share their object is not affected, and a
    careful program with a conj *)
Example C104_case :
  (exists st, run ord_id (shared_prog ++ [SMul 0 2; SConjMono 3; SConjPauli 0; SCommutator 1 2]) = Ok st /\ length (st_monos st) = 5) /\ (exists st, careful_run ord_id [SPauli 0 (GStr "Y") (CNum gi); SMono [0]; SConjMono 0] st).
Proof.
  split; [eexists; split; vm_compute; reflexivity|]. eexists.
  change [SPauli 0 (GStr "Y") (CNum gi); SMono [0]; SConjMono 0] with ((([] ++ [SPauli 0 (GStr "Y") (CNum gi)]) ++ [SMono [0]]) ++ [SConjMono 0]).
  eapply careful_snoc; [eapply careful_snoc; [eapply careful_snoc; [constructor| |vm_compute; reflexivity]| |vm_compute; reflexivity]| |vm_compute; reflexivity].
  - intros refs Q; discriminate.
  - intros refs Q r m _ (k & x & Hx & _). unfold mget in Hx. simpl in Hx. destruct m; discriminate.
  - intros refs Q; discriminate.
Qed.
