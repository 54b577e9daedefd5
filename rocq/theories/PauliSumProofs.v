(** Proofs about PauliSum. *)
From Coq Require Import List Arith ZArith QArith Qcanon Bool Lia Permutation Ring Setoid Sorted.
From Verif Require Import Py StarRing Matrix GaussQ PauliSpec PauliModel PauliSem PauliProofs
  PauliProofs2 PauliSumModel.
Import ListNotations.
Local Open Scope nat_scope.

Add Ring gq_ring_inst3 : gq_ring.

(** the operator of a list of references *)
Definition denote_sum (n : nat) (h : heap) (refs : list nat) : mat gq :=
  msum (fun r => denote n (h r)) refs.

Definition same_len (h : heap) (refs : list nat) : Prop :=
  forall r s, In r refs -> In s refs -> length (m_paulis (h r)) = length (m_paulis (h s)).

(** equality of two objects, as a boolean (only meaningful for equal lengths) *)
Definition eqo (h : heap) (r s : nat) : bool :=
  match mono_eq (h r) (h s) with Ok b => b | Err _ => false end.

Lemma eqo_ok h r s : length (m_paulis (h r)) = length (m_paulis (h s)) ->
  mono_eq (h r) (h s) = Ok (eqo h r s).
Proof.
  intros H. unfold eqo. destruct (mono_eq_iff _ _ H) as (b & E & _). rewrite E; auto.
Qed.

Lemma eqo_iff h r s : length (m_paulis (h r)) = length (m_paulis (h s)) ->
  (eqo h r s = true <-> isreal (m_coeff (h r)) = isreal (m_coeff (h s)) /\
                        key (m_paulis (h r)) = key (m_paulis (h s))).
Proof.
  intros H. unfold eqo. destruct (mono_eq_iff _ _ H) as (b & E & Hb). rewrite E; auto.
Qed.

Lemma eqo_key h r s : eqo h r s = true -> key (m_paulis (h r)) = key (m_paulis (h s)).
Proof.
  unfold eqo. intros H.
  destruct (Nat.eq_dec (length (m_paulis (h r))) (length (m_paulis (h s)))) as [E|E].
  - destruct (mono_eq_iff _ _ E) as (b & E2 & Hb). rewrite E2 in H. apply Hb in H; tauto.
  - apply (mono_eq_spec (h r) (h s)) in E. rewrite E in H; discriminate.
Qed.

Lemma eqo_refl h r : eqo h r r = true.
Proof. unfold eqo. destruct mono_eq_equiv as [H _]. rewrite H; auto. Qed.
Lemma eqo_sym h r s : eqo h r s = true -> eqo h s r = true.
Proof.
  unfold eqo. destruct mono_eq_equiv as [_ [H _]].
  destruct (mono_eq (h r) (h s)) as [[|]|] eqn:E; try discriminate. rewrite (H _ _ E); auto.
Qed.
Lemma eqo_trans h r s t : eqo h r s = true -> eqo h s t = true -> eqo h r t = true.
Proof.
  unfold eqo. destruct mono_eq_equiv as [_ [_ H]].
  destruct (mono_eq (h r) (h s)) as [[|]|] eqn:E; try discriminate.
  destruct (mono_eq (h s) (h t)) as [[|]|] eqn:E2; try discriminate. rewrite (H _ _ _ E E2); auto.
Qed.

Lemma ref_eq_ok h r s : length (m_paulis (h r)) = length (m_paulis (h s)) ->
  ref_eq h r s = Ok (eqo h r s).
Proof.
  intros H. unfold ref_eq. destruct (Nat.eqb_spec r s) as [->|].
  - rewrite eqo_refl; auto.
  - apply eqo_ok; auto.
Qed.

Lemma filterM_ok {A} (f : A -> res bool) (g : A -> bool) l :
  (forall x, In x l -> f x = Ok (g x)) -> filterM f l = Ok (filter g l).
Proof.
  induction l as [|x l IH]; simpl; intros H; auto.
  rewrite (H x) by auto; cbn [bind]. rewrite IH by (intros; apply H; auto). cbn [bind].
  destruct (g x); auto.
Qed.

(** ** The set of duplicates *)

Fixpoint dedup (h : heap) (l acc : list nat) : list nat :=
  match l with
  | [] => acc
  | r :: t => dedup h t (if existsb (fun s => eqo h s r) acc then acc else acc ++ [r])
  end.

Lemma set_of_ok h l acc : same_len h (l ++ acc) -> set_of h l acc = Ok (dedup h l acc).
Proof.
  revert acc; induction l as [|r l IH]; intros acc H; simpl; auto.
  rewrite (filterM_ok _ (fun s => eqo h s r)).
  2: { intros s Hs. apply ref_eq_ok. apply H; [simpl; rewrite in_app_iff; auto|left; auto]. }
  cbn [bind].
  assert (E : (match filter (fun s => eqo h s r) acc with [] => acc ++ [r] | _ :: _ => acc end) =
              if existsb (fun s => eqo h s r) acc then acc else acc ++ [r]).
  { clear. assert (X : existsb (fun s => eqo h s r) acc = true <->
                       filter (fun s => eqo h s r) acc <> []).
    { rewrite existsb_exists. split.
      - intros (s & Hs & E) C. assert (I : In s (filter (fun s => eqo h s r) acc)) by (apply filter_In; auto).
        rewrite C in I; inversion I.
      - intros C. destruct (filter (fun s => eqo h s r) acc) as [|s t] eqn:F; [congruence|].
        exists s. apply (filter_In (fun s => eqo h s r)). rewrite F; left; auto. }
    destruct (filter _ acc); destruct (existsb _ acc); auto; exfalso; intuition congruence. }
  rewrite E. apply IH.
  intros x y Hx Hy. apply H.
  - rewrite in_app_iff in Hx. simpl. rewrite in_app_iff.
    destruct (existsb _ acc); [tauto|]. rewrite in_app_iff in Hx; simpl in Hx. intuition.
  - rewrite in_app_iff in Hy. simpl. rewrite in_app_iff.
    destruct (existsb _ acc); [tauto|]. rewrite in_app_iff in Hy; simpl in Hy. intuition.
Qed.

(** pairwise different under == *)
Definition sep (h : heap) (l : list nat) : Prop := NoDup l /\
  forall r s, In r l -> In s l -> eqo h r s = true -> r = s.

Lemma dedup_props h l acc : sep h acc ->
  sep h (dedup h l acc) /\ incl acc (dedup h l acc) /\
  (forall r, In r (dedup h l acc) -> In r acc \/ In r l) /\
  (forall r, In r l -> exists d, In d (dedup h l acc) /\ eqo h d r = true).
Proof.
  revert acc; induction l as [|r l IH]; intros acc Hs; simpl.
  - repeat split; auto; try apply Hs. apply incl_refl. intros _ [].
  - set (acc' := if existsb (fun s => eqo h s r) acc then acc else acc ++ [r]).
    assert (Hs' : sep h acc').
    { unfold acc'. destruct (existsb _ acc) eqn:E; auto.
      assert (N : forall s, In s acc -> eqo h s r = false).
      { intros s Hi. destruct (eqo h s r) eqn:E2; auto. rewrite <- E. symmetry.
        apply existsb_exists. exists s; auto. }
      split.
      - apply NoDup_app_intro; [apply Hs|constructor; [simpl; tauto|constructor]|].
        intros x Hx [<-|[]]. specialize (N r Hx). rewrite eqo_refl in N; discriminate.
      - intros x y Hx Hy Exy. rewrite in_app_iff in Hx, Hy. simpl in Hx, Hy.
        destruct Hx as [Hx|[<-|[]]], Hy as [Hy|[<-|[]]]; auto.
        + apply (proj2 Hs); auto.
        + rewrite (N x Hx) in Exy; discriminate.
        + apply eqo_sym in Exy. rewrite (N y Hy) in Exy; discriminate. }
    destruct (IH acc' Hs') as (H1 & H2 & H3 & H4).
    assert (I : incl acc acc').
    { unfold acc'; destruct (existsb _ acc); [apply incl_refl|apply incl_appl, incl_refl]. }
    repeat split.
    + apply H1.
    + apply H1.
    + intros x Hx; apply H2, I; auto.
    + intros x Hx. apply H3 in Hx. destruct Hx as [Hx|Hx]; auto.
      unfold acc' in Hx. destruct (existsb _ acc); auto. rewrite in_app_iff in Hx; simpl in Hx; tauto.
    + intros x [<-|Hx]; auto.
      unfold acc' in H2. destruct (existsb (fun s => eqo h s r) acc) eqn:E.
      * apply existsb_exists in E. destruct E as (s & Hs1 & Es). exists s; split; auto.
      * exists r; split; [|apply eqo_refl]. apply H2. rewrite in_app_iff; right; left; auto.
Qed.

Definition multi (h : heap) (refs : list nat) (i : nat) : bool :=
  1 <? length (filter (fun s => eqo h s i) refs).

Definition dups_of (h : heap) (refs : list nat) : list nat :=
  dedup h (filter (multi h refs) refs) [].

Lemma duplicates_ok h refs : same_len h refs -> duplicates h refs = Ok (dups_of h refs).
Proof.
  intros H. unfold duplicates, dups_of.
  rewrite (filterM_ok _ (multi h refs)).
  2: { intros i Hi. unfold count_eq.
       rewrite (filterM_ok _ (fun s => eqo h s i)).
       - reflexivity.
       - intros s Hs. apply ref_eq_ok. apply H; auto. }
  cbn [bind]. apply set_of_ok. intros x y Hx Hy.
  rewrite app_nil_r in Hx, Hy. apply filter_In in Hx, Hy. apply H; tauto.
Qed.

Lemma dups_props h refs :
  sep h (dups_of h refs) /\ incl (dups_of h refs) refs /\
  (forall r, In r refs -> multi h refs r = true -> exists d, In d (dups_of h refs) /\ eqo h d r = true) /\
  (forall d, In d (dups_of h refs) -> multi h refs d = true).
Proof.
  destruct (dedup_props h (filter (multi h refs) refs) []) as (H1 & H2 & H3 & H4).
  { split; [constructor|intros ? ? []]. }
  fold (dups_of h refs) in *. repeat split; try apply H1.
  - intros r Hr. apply H3 in Hr. destruct Hr as [[]|Hr]. apply filter_In in Hr; tauto.
  - intros r Hr Hm. apply H4. apply filter_In; auto.
  - intros d Hd. apply H3 in Hd. destruct Hd as [[]|Hd]. apply filter_In in Hd; tauto.
Qed.

(** ** One merge *)

Fixpoint pos (f : nat -> bool) (j : nat) (refs : list nat) : list nat :=
  match refs with
  | [] => []
  | r :: t => if f r then j :: pos f (S j) t else pos f (S j) t
  end.

Definition gsum (h : heap) (l : list nat) : gq := lsum (fun r => m_coeff (h r)) l.

Lemma scan_ok h d j refs c idx :
  (forall r, In r refs -> length (m_paulis (h r)) = length (m_paulis (h d))) ->
  scan h d j refs c idx =
  Ok (gadd c (gsum h (filter (fun r => eqo h r d) refs)), idx ++ pos (fun r => eqo h r d) j refs).
Proof.
  revert j c idx; induction refs as [|r t IH]; intros j c idx H; cbn [scan filter pos].
  - rewrite app_nil_r. f_equal. f_equal. unfold gsum; simpl. ring.
  - rewrite eqo_ok by (apply H; left; auto). cbn [bind].
    destruct (eqo h r d) eqn:E; rewrite IH by (intros; apply H; right; auto).
    + f_equal. f_equal.
      * unfold gsum; simpl. ring.
      * rewrite <- app_assoc. reflexivity.
    + reflexivity.
Qed.

Lemma pos_ge f j refs i : In i (pos f j refs) -> j <= i.
Proof.
  revert j; induction refs as [|r t IH]; intros j H; simpl in H; [inversion H|].
  destruct (f r); [destruct H as [<-|H]; auto|]; apply IH in H; lia.
Qed.

Lemma drop_at_pos f j refs bad :
  (forall i, j <= i -> (In i bad <-> In i (pos f j refs))) ->
  drop_at j bad refs = filter (fun r => negb (f r)) refs.
Proof.
  revert j; induction refs as [|r t IH]; intros j H; simpl; auto.
  assert (Hj : mem j bad = f r).
  { destruct (f r) eqn:E.
    - apply mem_In. apply H; [lia|]. simpl. rewrite E. left; auto.
    - apply mem_nIn. intros Hi. apply H in Hi; [|lia]. simpl in Hi. rewrite E in Hi.
      apply pos_ge in Hi. lia. }
  rewrite Hj. rewrite IH.
  - destruct (f r); auto.
  - intros i Hi. rewrite H by lia. simpl. destruct (f r); [|tauto].
    split; [intros [E|E]; auto; lia|intros E; right; auto].
Qed.

Lemma drop_at_none j bad refs : (forall i, In i bad -> i < j \/ j + length refs <= i) ->
  drop_at j bad refs = refs.
Proof.
  revert j; induction refs as [|r t IH]; intros j H; simpl; auto.
  assert (E : mem j bad = false).
  { apply mem_nIn. intros Hi. apply H in Hi. simpl in Hi. lia. }
  rewrite E, IH; auto. intros i Hi. apply H in Hi. simpl in Hi. lia.
Qed.

Lemma drop_at_app j bad l1 l2 :
  drop_at j bad (l1 ++ l2) = drop_at j bad l1 ++ drop_at (j + length l1) bad l2.
Proof.
  revert j; induction l1 as [|r t IH]; intros j; simpl.
  - rewrite Nat.add_0_r; auto.
  - rewrite IH. replace (j + S (length t)) with (S j + length t) by lia.
    destruct (mem j bad); auto.
Qed.

Lemma pos_app f j l1 l2 : pos f j (l1 ++ l2) = pos f j l1 ++ pos f (j + length l1) l2.
Proof.
  revert j; induction l1 as [|r t IH]; intros j; simpl.
  - rewrite Nat.add_0_r; auto.
  - rewrite IH. replace (j + S (length t)) with (S j + length t) by lia.
    destruct (f r); auto.
Qed.

Lemma pos_none f j l : (forall r, In r l -> f r = false) -> pos f j l = [].
Proof.
  revert j; induction l as [|r t IH]; intros j H; simpl; auto.
  rewrite (H r) by (left; auto). apply IH. intros; apply H; right; auto.
Qed.

Lemma split_first (f : nat -> bool) l : (exists x, In x l /\ f x = true) ->
  exists l1 r0 l2, l = l1 ++ r0 :: l2 /\ (forall x, In x l1 -> f x = false) /\ f r0 = true.
Proof.
  induction l as [|r t IH]; intros (x & Hx & Hf); [inversion Hx|].
  destruct (f r) eqn:E.
  - exists [], r, t. repeat split; auto. intros ? [].
  - destruct Hx as [->|Hx]; [congruence|].
    destruct IH as (l1 & r0 & l2 & -> & H1 & H2); [exists x; auto|].
    exists (r :: l1), r0, l2. repeat split; auto. intros y [<-|Hy]; auto.
Qed.

Lemma filter_none {A} (f : A -> bool) l : (forall x, In x l -> f x = false) -> filter f l = [].
Proof.
  induction l as [|x l IH]; simpl; intros H; auto.
  rewrite (H x) by auto. apply IH; auto.
Qed.
Lemma filter_all {A} (f : A -> bool) l : (forall x, In x l -> f x = true) -> filter f l = l.
Proof.
  induction l as [|x l IH]; simpl; intros H; auto.
  rewrite (H x) by auto. f_equal; auto.
Qed.

(** Result of one merge: everything equal to [d] is gathered in its first occurrence. *)
Lemma merge_step_ok h refs d : same_len h refs -> In d refs ->
  exists l1 r0 l2, refs = l1 ++ r0 :: l2 /\
    (forall x, In x l1 -> eqo h x d = false) /\ eqo h r0 d = true /\
    merge_step h refs d =
      Ok (hset h r0 (gsum h (filter (fun r => eqo h r d) refs)),
          l1 ++ r0 :: filter (fun r => negb (eqo h r d)) l2).
Proof.
  intros Hs Hd.
  destruct (split_first (fun r => eqo h r d) refs) as (l1 & r0 & l2 & E & H1 & H2).
  { exists d; split; auto. apply eqo_refl. }
  exists l1, r0, l2. split; [auto|]. split; [auto|]. split; [auto|].
  unfold merge_step. rewrite scan_ok by (intros; apply Hs; auto). cbn [bind].
  set (f := fun r => eqo h r d) in *.
  assert (H2' : f r0 = true) by exact H2.
  assert (EP : pos f 0 refs = length l1 :: pos f (S (length l1)) l2).
  { rewrite E, pos_app, pos_none by auto. simpl. rewrite H2'. auto. }
  rewrite EP. cbn [app tl].
  assert (ED : (if 1 <? length (length l1 :: pos f (S (length l1)) l2)
                then drop_at 0 (pos f (S (length l1)) l2) refs else refs) =
               l1 ++ r0 :: filter (fun r => negb (f r)) l2).
  { assert (X : drop_at 0 (pos f (S (length l1)) l2) refs = l1 ++ r0 :: filter (fun r => negb (f r)) l2).
    { rewrite E, drop_at_app. rewrite drop_at_none.
      2: { intros i Hi. apply pos_ge in Hi. lia. }
      f_equal. simpl.
      assert (Y : mem (length l1) (pos f (S (length l1)) l2) = false).
      { apply mem_nIn. intros Hi. apply pos_ge in Hi. lia. }
      rewrite Y. f_equal. apply drop_at_pos. tauto. }
    destruct (Nat.ltb_spec 1 (length (length l1 :: pos f (S (length l1)) l2))) as [L|L]; auto.
    rewrite <- X. simpl in L. destruct (pos f (S (length l1)) l2); [|simpl in L; lia].
    rewrite drop_at_none; auto. intros ? []. }
  rewrite ED.
  rewrite nth_error_app2 by lia. rewrite Nat.sub_diag. cbn [nth_error].
  f_equal. f_equal. f_equal. ring.
Qed.

(** ** What merging does to the operator *)

Lemma key_letter_gen (a b : mono) s : key (m_paulis a) = key (m_paulis b) -> letter_on a s = letter_on b s.
Proof.
  unfold key, letter_on. generalize (m_paulis a) as l, (m_paulis b) as l'.
  induction l as [|p l IH]; intros [|q l'] H; try discriminate; auto.
  cbn [map] in H. apply cons_inv in H. destruct H as [H1 H2]. injection H1 as E1 E2.
  cbn [find]. rewrite E1. destruct (p_alpha q =? s); auto.
Qed.

Lemma key_string n (a b : mono) : key (m_paulis a) = key (m_paulis b) -> mono_string n a = mono_string n b.
Proof. intros H. unfold mono_string. apply map_ext. intros s; apply key_letter_gen; auto. Qed.

Lemma hset_same h r c : hset h r c r = set_coeff (h r) c.
Proof. unfold hset. rewrite Nat.eqb_refl; auto. Qed.
Lemma hset_other h r c x : x <> r -> hset h r c x = h x.
Proof. unfold hset. intros H; apply Nat.eqb_neq in H; rewrite H; auto. Qed.
Lemma hset_paulis h r c x : m_paulis (hset h r c x) = m_paulis (h x) /\ m_locs (hset h r c x) = m_locs (h x).
Proof. unfold hset. destruct (Nat.eqb_spec x r); subst; auto. Qed.

Lemma filter_app_eq {A} (f : A -> bool) l1 l2 : filter f (l1 ++ l2) = filter f l1 ++ filter f l2.
Proof. induction l1 as [|x l IH]; simpl; auto. destruct (f x); simpl; rewrite IH; auto. Qed.

Lemma lsum_split {A} (f : A -> bool) (g : A -> gq) l :
  lsum g l = gadd (lsum g (filter f l)) (lsum g (filter (fun x => negb (f x)) l)).
Proof.
  induction l as [|x l IH]; simpl; [ring|]. rewrite IH.
  destruct (f x); simpl; ring.
Qed.

Lemma merge_denote n h refs l1 r0 l2 d : refs = l1 ++ r0 :: l2 ->
  (forall x, In x l1 -> eqo h x d = false) -> eqo h r0 d = true ->
  meq (2 ^ n)
    (denote_sum n (hset h r0 (gsum h (filter (fun r => eqo h r d) refs)))
                (l1 ++ r0 :: filter (fun r => negb (eqo h r d)) l2))
    (denote_sum n h refs).
Proof.
  intros E H1 H2 i j _ _. unfold denote_sum, msum.
  set (f := fun r => eqo h r d) in *.
  set (c := gsum h (filter f refs)).
  set (w := pword (mono_string n (h r0)) i j).
  assert (N1 : forall x, f x = false -> x <> r0) by (intros x Hx ->; unfold f in Hx; congruence).
  rewrite lsum_app, lsum_cons.
  rewrite (lsum_ext (fun r => denote n (hset h r0 c r) i j) (fun r => denote n (h r) i j) l1).
  2: { intros x Hx. rewrite hset_other; auto. apply N1, H1; auto. }
  rewrite (lsum_ext (fun r => denote n (hset h r0 c r) i j) (fun r => denote n (h r) i j)
             (filter (fun r => negb (f r)) l2)).
  2: { intros x Hx. apply filter_In in Hx. rewrite hset_other; auto. apply N1.
       apply negb_true_iff; tauto. }
  assert (E0 : denote n (hset h r0 c r0) i j = gmul c w).
  { rewrite hset_same. reflexivity. }
  rewrite E0. clear E0.
  assert (EC : gmul c w = lsum (fun r => denote n (h r) i j) (filter f refs)).
  { unfold c, gsum, w. change gmul with (@kmul gq GaussQ). rewrite <- lsum_scale_r. apply lsum_ext.
    intros x Hx. apply filter_In in Hx. destruct Hx as [_ Hx]. unfold denote, mscale.
    rewrite (key_string n (h x) (h r0)); auto.
    apply eqo_key. apply eqo_trans with d; auto. apply eqo_sym; auto. }
  rewrite EC. rewrite (lsum_split f _ refs).
  assert (EF : filter (fun x => negb (f x)) refs = l1 ++ filter (fun x => negb (f x)) l2).
  { rewrite E, filter_app_eq. cbn [filter]. replace (f r0) with true by (symmetry; exact H2). simpl. f_equal.
    apply filter_all. intros x Hx. unfold f. rewrite H1; auto. }
  rewrite EF, lsum_app. simpl. ring.
Qed.

(** invariant of the merge loop relative to the initial store *)
Definition frame (h h' : heap) (refs refs' : list nat) : Prop :=
  incl refs' refs /\
  (forall r, ~ In r refs -> h' r = h r) /\
  (forall r, m_paulis (h' r) = m_paulis (h r) /\ m_locs (h' r) = m_locs (h r)).

Lemma merge_loop_ok h refs dups : same_len h refs -> sep h dups -> incl dups refs ->
  exists h' refs', merge_loop h refs dups = Ok (h', refs') /\ frame h h' refs refs' /\
    length refs' <= length refs /\
    forall n, meq (2 ^ n) (denote_sum n h' refs') (denote_sum n h refs).
Proof.
  revert h refs; induction dups as [|d dups IH]; intros h refs Hl Hs Hi; cbn [merge_loop].
  - exists h, refs. split; auto. split; [|split; auto].
    + repeat split; auto. apply incl_refl.
    + intros n; reflexivity.
  - destruct (merge_step_ok h refs d) as (l1 & r0 & l2 & E & H1 & H2 & HM); auto.
    { apply Hi; left; auto. }
    rewrite HM. cbn [bind].
    set (c := gsum h (filter (fun r => eqo h r d) refs)) in *.
    set (h1 := hset h r0 c) in *.
    set (refs1 := l1 ++ r0 :: filter (fun r => negb (eqo h r d)) l2) in *.
    assert (I1 : incl refs1 refs).
    { unfold refs1. rewrite E. intros x. rewrite !in_app_iff. simpl. rewrite filter_In. tauto. }
    assert (P1 : forall r, m_paulis (h1 r) = m_paulis (h r) /\ m_locs (h1 r) = m_locs (h r)).
    { intros r. apply hset_paulis. }
    assert (Sd : forall x, In x dups -> eqo h x d = false /\ h1 x = h x).
    { intros x Hx. destruct Hs as [Hn Hs]. inversion Hn as [|a b Hd Hn']; subst a b.
      assert (F : eqo h x d = false).
      { destruct (eqo h x d) eqn:F; auto. exfalso. apply Hd.
        rewrite <- (Hs x d); auto; simpl; auto. }
      split; auto. unfold h1. apply hset_other. intros ->. congruence. }
    destruct (IH h1 refs1) as (h' & refs' & EM & (F1 & F2 & F3) & HL & HD).
    + intros r s Hr Hs'. rewrite (proj1 (P1 r)), (proj1 (P1 s)). apply Hl; auto.
    + destruct Hs as [Hn Hs]. inversion Hn as [|a b Hd Hn']; subst a b. split; auto.
      intros r s Hr Hs' Ers. apply Hs; simpl; auto.
      destruct (Sd r Hr) as [_ Er], (Sd s Hs') as [_ Es].
      unfold eqo in Ers |- *. rewrite Er, Es in Ers. auto.
    + intros x Hx. destruct (Sd x Hx) as [Fx _].
      assert (Hxr : In x refs) by (apply Hi; right; auto).
      unfold refs1. rewrite E in Hxr. rewrite in_app_iff in Hxr |- *. simpl in Hxr |- *.
      rewrite filter_In, Fx. destruct Hxr as [?|[?|?]]; auto.
    + exists h', refs'. split; auto. split; [|split].
      * repeat split.
        -- intros x Hx; apply I1, F1; auto.
        -- intros r Hr. rewrite F2 by (intros X; apply Hr, I1; auto).
           unfold h1. apply hset_other. intros ->. apply Hr. rewrite E, in_app_iff; right; left; auto.
        -- rewrite (proj1 (F3 r)). apply P1.
        -- rewrite (proj2 (F3 r)). apply P1.
      * assert (length refs1 <= length refs).
        { unfold refs1. rewrite E, !app_length. simpl.
          assert (forall g (l : list nat), length (filter g l) <= length l).
          { clear. intros g l. induction l; simpl; auto. destruct (g a); simpl; lia. }
          specialize (H (fun r => negb (eqo h r d)) l2). lia. }
        lia.
      * intros n. rewrite HD. unfold h1, refs1, c. apply merge_denote; auto.
Qed.

Lemma sep_perm h l l' : Permutation l l' -> sep h l -> sep h l'.
Proof.
  intros HP [Hn Hs]. split.
  - eapply Permutation_NoDup; eauto.
  - intros r s Hr Hs'. apply Hs; apply (Permutation_in _ (Permutation_sym HP)); auto.
Qed.

Lemma filter_length_le {A} (f : A -> bool) l : length (filter f l) <= length l.
Proof. induction l as [|x l IH]; simpl; auto. destruct (f x); simpl; lia. Qed.

Lemma simplify_ok ord h refs : reorders ord -> same_len h refs ->
  exists h' refs' dropped, simplify ord h refs = Ok (h', refs') /\ frame h h' refs refs' /\
    incl dropped refs /\ length refs' + length dropped <= length refs /\
    (forall r, In r dropped -> isclose0 (m_coeff (h' r)) = true) /\
    forall n, meq (2 ^ n) (denote_sum n h refs)
                          (madd (denote_sum n h' refs') (denote_sum n h' dropped)).
Proof.
  intros Ho Hl. unfold simplify. rewrite duplicates_ok by auto. cbn [bind].
  destruct (dups_props h refs) as (S1 & S2 & S3 & S4).
  destruct (dups_of h refs) as [|d0 dt] eqn:ED.
  - exists h, refs, []. split; auto. split; [repeat split; auto; apply incl_refl|].
    split; [intros ? []|]. split; [simpl; lia|]. split; [intros ? []|].
    intros n i j _ _. unfold madd, denote_sum, msum. simpl. ring.
  - rewrite <- ED in *. clear ED d0 dt. set (D := dups_of h refs) in *.
    destruct (merge_loop_ok h refs (ord D)) as (h' & refs' & EM & (F1 & F2 & F3) & HL & HD); auto.
    + apply sep_perm with D; auto. apply Permutation_sym, Ho.
    + intros x Hx. apply S2. apply (Permutation_in _ (Ho D)); auto.
    + rewrite EM. cbn [bind]. exists h'.
      exists (filter (fun r => negb (isclose0 (m_coeff (h' r)))) refs').
      exists (filter (fun r => isclose0 (m_coeff (h' r))) refs').
      split; auto. split; [repeat split; auto|].
      { intros x Hx. apply filter_In in Hx. apply F1; tauto. }
      { apply F3. } { apply F3. }
      split. { intros x Hx. apply filter_In in Hx. apply F1; tauto. }
      split.
      { assert (X : forall (f : nat -> bool) l, length (filter (fun r => negb (f r)) l) + length (filter f l) = length l).
        { clear. intros f l. induction l as [|x l IH]; simpl; auto. destruct (f x); simpl; lia. }
        rewrite (X (fun r => isclose0 (m_coeff (h' r)))). auto. }
      split. { intros r Hr. apply filter_In in Hr; tauto. }
      intros n. rewrite <- HD. intros i j _ _. unfold madd, denote_sum, msum.
      rewrite (lsum_split (fun r => isclose0 (m_coeff (h' r))) _ refs'). simpl. ring.
Qed.

Lemma psum_init_len ord h refs : same_len h refs -> psum_init ord h refs = simplify ord h refs.
Proof.
  intros H. unfold psum_init.
  assert (E : forallb (fun r => match refs with
        | [] => true | r0 :: _ => length (m_paulis (h r)) =? length (m_paulis (h r0)) end) refs = true).
  { apply forallb_forall. intros r Hr. destruct refs as [|r0 t]; auto.
    apply Nat.eqb_eq. apply H; auto. left; auto. }
  rewrite E. auto.
Qed.

Lemma psum_init_bad ord h refs : ~ same_len h refs -> psum_init ord h refs = Err AssertionError.
Proof.
  intros H. unfold psum_init. destruct (forallb _ refs) eqn:E; auto.
  exfalso; apply H. rewrite forallb_forall in E. destruct refs as [|r0 t].
  - intros ? ? [].
  - intros r s Hr Hs. apply E in Hr, Hs. apply Nat.eqb_eq in Hr, Hs. congruence.
Qed.

(** The full statement of C11. *)
Lemma psum_init_spec ord h refs : reorders ord ->
  (same_len h refs ->
   exists h' refs' dropped, psum_init ord h refs = Ok (h', refs') /\
    incl refs' refs /\ incl dropped refs /\ length refs' + length dropped <= length refs /\
    (forall r, ~ In r refs -> h' r = h r) /\
    (forall r, m_paulis (h' r) = m_paulis (h r) /\ m_locs (h' r) = m_locs (h r)) /\
    (forall r, In r dropped -> isclose0 (m_coeff (h' r)) = true) /\
    forall n, meq (2 ^ n) (denote_sum n h refs)
                          (madd (denote_sum n h' refs') (denote_sum n h' dropped))) /\
  (~ same_len h refs -> psum_init ord h refs = Err AssertionError).
Proof.
  intros Ho. split; [|apply psum_init_bad].
  intros Hl. rewrite psum_init_len by auto.
  destruct (simplify_ok ord h refs Ho Hl) as (h' & refs' & dropped & E & (F1 & F2 & F3) & X & Y & Z & W).
  exists h', refs', dropped. repeat split; auto; apply F3.
Qed.
