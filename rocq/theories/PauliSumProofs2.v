(** Duplicates left by simplify; addition, subtraction, product and scaling of sums. *)
From Coq Require Import List Arith ZArith QArith Qcanon Bool Lia Permutation Ring Setoid Sorted.
From Verif Require Import Py StarRing Matrix GaussQ PauliSpec PauliModel PauliSem PauliProofs
  PauliProofs2 PauliSumModel PauliSumProofs.
Import ListNotations.
Local Open Scope nat_scope.

Add Ring gq_ring_inst4 : gq_ring.

(** ** No duplicates, when no string occurs with both a real and a non-real coefficient *)

Definition skey (h : heap) (r : nat) : list (nat * nat) := key (m_paulis (h r)).

Definition unmixed (h : heap) (refs : list nat) : Prop :=
  forall r s, In r refs -> In s refs -> skey h r = skey h s ->
    isreal (m_coeff (h r)) = isreal (m_coeff (h s)).

Definition key_dec : forall a b : list (nat * nat), {a = b} + {a <> b}.
Proof. repeat decide equality. Defined.

Notation cnt h k l := (count_occ key_dec (map (skey h) l) k).

Lemma eqo_unmixed h refs r s : same_len h refs -> unmixed h refs -> In r refs -> In s refs ->
  (eqo h r s = true <-> skey h r = skey h s).
Proof.
  intros Hl Hm Hr Hs. rewrite eqo_iff by auto. unfold skey at 1 2. split; [tauto|].
  intros E; split; auto.
Qed.

Lemma cnt_app h k l1 l2 : cnt h k (l1 ++ l2) = cnt h k l1 + cnt h k l2.
Proof. rewrite map_app. apply count_occ_app. Qed.

Lemma cnt_zero h k l : (forall x, In x l -> skey h x <> k) -> cnt h k l = 0.
Proof.
  intros H. apply count_occ_not_In. intros Hi. apply in_map_iff in Hi.
  destruct Hi as (x & E & Hx). apply (H x); auto.
Qed.

Lemma skey_same h h' : (forall r, m_paulis (h' r) = m_paulis (h r)) -> forall r, skey h' r = skey h r.
Proof. intros H r. unfold skey. rewrite H; auto. Qed.

Lemma cnt_same h h' k l : (forall r, skey h' r = skey h r) -> cnt h' k l = cnt h k l.
Proof. intros H. rewrite (map_ext (skey h') (skey h)); auto. Qed.

Lemma cnt_filter h k f l : (forall x, In x l -> f x = false -> skey h x <> k) ->
  cnt h k (filter f l) = cnt h k l.
Proof.
  induction l as [|x l IH]; intros H; auto. cbn [filter].
  assert (H' : forall x, In x l -> f x = false -> skey h x <> k) by (intros; apply H; auto; right; auto).
  destruct (f x) eqn:E; cbn [map count_occ].
  - destruct (key_dec (skey h x) k); rewrite IH; auto.
  - destruct (key_dec (skey h x) k) as [C|C].
    + exfalso. apply (H x); auto. left; auto.
    + apply IH; auto.
Qed.

Lemma merge_loop_counts h refs dups : same_len h refs -> unmixed h refs -> sep h dups -> incl dups refs ->
  exists h' refs', merge_loop h refs dups = Ok (h', refs') /\ frame h h' refs refs' /\
    forall k, ((exists d, In d dups /\ skey h d = k) -> cnt h k refs' = 1) /\
              ((forall d, In d dups -> skey h d <> k) -> cnt h k refs' = cnt h k refs).
Proof.
  revert h refs; induction dups as [|d dups IH]; intros h refs Hl Hm Hs Hi; cbn [merge_loop].
  - exists h, refs. split; auto. split; [repeat split; auto; apply incl_refl|].
    intros k; split; auto. intros (d & [] & _).
  - destruct (merge_step_ok h refs d) as (l1 & r0 & l2 & E & H1 & H2 & HM); auto.
    { apply Hi; left; auto. }
    rewrite HM. cbn [bind].
    set (c := gsum h (filter (fun r => eqo h r d) refs)) in *.
    set (h1 := hset h r0 c) in *.
    set (refs1 := l1 ++ r0 :: filter (fun r => negb (eqo h r d)) l2) in *.
    assert (I1 : incl refs1 refs).
    { unfold refs1. rewrite E. intros x. rewrite !in_app_iff. simpl. rewrite filter_In. tauto. }
    assert (P1 : forall r, m_paulis (h1 r) = m_paulis (h r) /\ m_locs (h1 r) = m_locs (h r)).
    { intros r. apply hset_paulis. }
    assert (K1 : forall r, skey h1 r = skey h r) by (apply skey_same; intros; apply P1).
    assert (Hdr : In d refs) by (apply Hi; left; auto).
    assert (Hr0 : In r0 refs) by (rewrite E, in_app_iff; right; left; auto).
    assert (Q : forall x, In x refs -> (eqo h x d = true <-> skey h x = skey h d)).
    { intros x Hx. apply eqo_unmixed with refs; auto. }
    assert (Sd : forall x, In x dups -> eqo h x d = false /\ h1 x = h x).
    { intros x Hx. destruct Hs as [Hn Hs]. inversion Hn as [|a b Hd Hn']; subst a b.
      assert (F : eqo h x d = false).
      { destruct (eqo h x d) eqn:F; auto. exfalso. apply Hd.
        rewrite <- (Hs x d); auto; simpl; auto. }
      split; auto. unfold h1. apply hset_other. intros ->. congruence. }
    assert (R1 : forall x, In x refs1 -> skey h x = skey h d -> x = r0).
    { intros x Hx Ek. pose proof (I1 x Hx) as Hxr. apply Q in Ek; auto.
      unfold refs1 in Hx. rewrite in_app_iff in Hx. simpl in Hx. rewrite filter_In in Hx.
      destruct Hx as [Hx|[Hx|[_ Hx]]]; auto.
      - rewrite H1 in Ek by auto. discriminate.
      - rewrite Ek in Hx; discriminate. }
    destruct (IH h1 refs1) as (h' & refs' & EM & (F1 & F2 & F3) & HC).
    + intros r s Hr Hs'. rewrite (proj1 (P1 r)), (proj1 (P1 s)). apply Hl; auto.
    + intros r s Hr Hs' Ek. rewrite !K1 in Ek.
      destruct (key_dec (skey h r) (skey h d)) as [Er|Er].
      * rewrite (R1 r), (R1 s); auto. congruence.
      * assert (r <> r0).
        { intros ->. apply Er. apply Q; auto. }
        assert (s <> r0).
        { intros ->. apply Er. rewrite Ek. apply Q; auto. }
        unfold h1. rewrite !hset_other by auto. apply Hm; auto.
    + destruct Hs as [Hn Hs]. inversion Hn as [|a b Hd Hn']; subst a b. split; auto.
      intros r s Hr Hs' Ers. apply Hs; simpl; auto.
      destruct (Sd r Hr) as [_ Er], (Sd s Hs') as [_ Es].
      unfold eqo in Ers |- *. rewrite Er, Es in Ers. auto.
    + intros x Hx. destruct (Sd x Hx) as [Fx _].
      assert (Hxr : In x refs) by (apply Hi; right; auto).
      unfold refs1. rewrite E in Hxr. rewrite in_app_iff in Hxr |- *. simpl in Hxr |- *.
      rewrite filter_In, Fx. destruct Hxr as [?|[?|?]]; auto.
    + exists h', refs'. split; auto. split.
      { repeat split.
        - intros x Hx; apply I1, F1; auto.
        - intros r Hr. rewrite F2 by (intros X; apply Hr, I1; auto).
          unfold h1. apply hset_other. intros ->. apply Hr; auto.
        - rewrite (proj1 (F3 r)). apply P1.
        - rewrite (proj2 (F3 r)). apply P1. }
      assert (C1 : cnt h (skey h d) refs1 = 1).
      { unfold refs1. rewrite cnt_app. cbn [map count_occ].
        rewrite cnt_zero. 2: { intros x Hx Ek. apply Q in Ek; [|rewrite E, in_app_iff; auto].
                               rewrite H1 in Ek by auto; discriminate. }
        assert (Ek : skey h r0 = skey h d) by (apply Q; auto).
        destruct (key_dec (skey h r0) (skey h d)); [|congruence].
        rewrite cnt_zero; auto. intros x Hx Ex. apply filter_In in Hx. destruct Hx as [Hx Hf].
        apply Q in Ex; [|rewrite E, in_app_iff; right; right; auto]. rewrite Ex in Hf; discriminate. }
      assert (C2 : forall k, skey h d <> k -> cnt h k refs1 = cnt h k refs).
      { intros k Hk. unfold refs1. rewrite E, !cnt_app. f_equal. cbn [map count_occ].
        rewrite cnt_filter; auto. intros x Hx Hf. apply negb_false_iff in Hf.
        apply Q in Hf; [congruence|]. rewrite E, in_app_iff; right; right; auto. }
      intros k. destruct (HC k) as [HC1 HC2]. rewrite !(cnt_same h h1 k refs') in HC1, HC2 by auto.
      rewrite (cnt_same h h1 k refs1) in HC2 by auto. split.
      * intros (d' & [<-|Hd'] & Ek).
        -- rewrite HC2; [rewrite <- Ek; exact C1|]. intros d' Hd'. rewrite K1. intros Ek'.
           destruct (Sd d' Hd') as [F _].
           assert (eqo h d' d = true) by (apply Q; [apply Hi; right; auto|congruence]). congruence.
        -- apply HC1. exists d'; split; auto. rewrite K1; auto.
      * intros Hk. rewrite HC2.
        -- apply C2. apply Hk; left; auto.
        -- intros d' Hd'. rewrite K1. apply Hk; right; auto.
Qed.

Lemma cnt_eqo h refs r : same_len h refs -> unmixed h refs -> In r refs ->
  forall l, incl l refs -> length (filter (fun s => eqo h s r) l) = cnt h (skey h r) l.
Proof.
  intros Hl Hm Hr. induction l as [|x l IH]; intros Hi; auto. cbn [filter map count_occ].
  assert (Hx : In x refs) by (apply Hi; left; auto).
  assert (I' : incl l refs) by (intros y Hy; apply Hi; right; auto).
  pose proof (eqo_unmixed h refs x r Hl Hm Hx Hr) as Q.
  destruct (key_dec (skey h x) (skey h r)) as [E|E].
  - apply Q in E. rewrite E. simpl. rewrite IH; auto.
  - destruct (eqo h x r) eqn:F; [exfalso; apply E, Q; auto|]. apply IH; auto.
Qed.

Lemma NoDup_map_inj {A B} (f : A -> B) l x y : NoDup (map f l) -> In x l -> In y l -> f x = f y -> x = y.
Proof.
  induction l as [|a l IH]; simpl; intros Hn Hx Hy E; [tauto|].
  inversion Hn as [|b t Hb Hn']; subst.
  destruct Hx as [->|Hx], Hy as [->|Hy]; auto.
  - exfalso. apply Hb. rewrite E. apply in_map; auto.
  - exfalso. apply Hb. rewrite <- E. apply in_map; auto.
Qed.

Lemma map_filter_NoDup {A B} (f : A -> B) p l : NoDup (map f l) -> NoDup (map f (filter p l)).
Proof.
  induction l as [|x l IH]; simpl; intros H; auto. inversion H as [|b t Hb Hn]; subst.
  destruct (p x); auto. simpl. constructor; auto.
  intros Hi. apply Hb. apply in_map_iff in Hi. destruct Hi as (y & E & Hy). apply filter_In in Hy.
  rewrite <- E. apply in_map; tauto.
Qed.

(** Two different positions of the list hold equal monomials. *)
Definition has_equal (h : heap) (refs : list nat) : Prop :=
  exists i j r s, i <> j /\ nth_error refs i = Some r /\ nth_error refs j = Some s /\
    mono_eq (h r) (h s) = Ok true.

Lemma filter_two {A} (f : A -> bool) l i j x y : i <> j -> nth_error l i = Some x -> nth_error l j = Some y ->
  f x = true -> f y = true -> 2 <= length (filter f l).
Proof.
  revert i j; induction l as [|a l IH]; intros i j Hij Hi Hj Hx Hy.
  - destruct i; discriminate.
  - assert (P : forall k z, nth_error l k = Some z -> f z = true -> 1 <= length (filter f l)).
    { intros k z Hk Hz. apply nth_error_In in Hk.
      assert (In z (filter f l)) by (apply filter_In; auto).
      destruct (filter f l); [contradiction|simpl; lia]. }
    destruct i as [|i], j as [|j]; simpl in Hi, Hj; try lia.
    + injection Hi as ->. simpl. rewrite Hx. simpl. specialize (P _ _ Hj Hy). lia.
    + injection Hj as ->. simpl. rewrite Hy. simpl. specialize (P _ _ Hi Hx). lia.
    + assert (2 <= length (filter f l)) by (apply (IH i j); auto).
      simpl. destruct (f a); simpl; lia.
Qed.

Lemma has_equal_multi h refs : has_equal h refs -> exists r, In r refs /\ multi h refs r = true.
Proof.
  intros (i & j & r & s & Hij & Hi & Hj & E). exists s.
  split; [apply nth_error_In with j; auto|]. unfold multi. apply Nat.ltb_lt.
  pose proof (filter_two (fun x => eqo h x s) refs i j r s Hij Hi Hj) as H.
  assert (2 <= length (filter (fun x => eqo h x s) refs)); [|lia].
  apply H; [unfold eqo; rewrite E; auto|apply eqo_refl].
Qed.

Lemma simplify_nodup_partial ord h refs : reorders ord -> same_len h refs -> unmixed h refs ->
  exists h' refs', psum_init ord h refs = Ok (h', refs') /\ NoDup refs' /\
    NoDup (map (skey h') refs') /\
    (has_equal h refs -> forall r, In r refs' -> isclose0 (m_coeff (h' r)) = false).
Proof.
  intros Ho Hl Hm. rewrite psum_init_len by auto. unfold simplify.
  rewrite duplicates_ok by auto. cbn [bind].
  destruct (dups_props h refs) as (S1 & S2 & S3 & S4).
  assert (Fin : forall h' refs', NoDup (map (skey h) refs') ->
     (forall r, m_paulis (h' r) = m_paulis (h r)) ->
     NoDup refs' /\ NoDup (map (skey h') refs')).
  { intros h' refs' HN HP. split; [eapply NoDup_map_inv; eauto|].
    replace (map (skey h') refs') with (map (skey h) refs'); auto. apply map_ext. intros r. unfold skey. rewrite HP. auto. }
  destruct (dups_of h refs) as [|d0 dt] eqn:ED.
  - exists h, refs. split; auto.
    assert (HN : NoDup (map (skey h) refs)).
    { apply (NoDup_count_occ key_dec). intros k.
      destruct (le_lt_dec (cnt h k refs) 1) as [?|Hc]; auto. exfalso.
      assert (Hin : In k (map (skey h) refs)).
      { apply (count_occ_In key_dec). lia. }
      apply in_map_iff in Hin. destruct Hin as (r & <- & Hr).
      destruct (S3 r Hr) as (d & [] & _). unfold multi. apply Nat.ltb_lt.
      rewrite (cnt_eqo h refs r) by (auto; apply incl_refl). auto. }
    destruct (Fin h refs HN) as [F1 F2]; auto. split; auto. split; auto.
    intros HE. apply has_equal_multi in HE. destruct HE as (r & Hr & Hmu).
    destruct (S3 r Hr Hmu) as (d & [] & _).
  - rewrite <- ED in *. clear ED d0 dt. set (D := dups_of h refs) in *.
    destruct (merge_loop_counts h refs (ord D)) as (h' & refs' & EM & (F1 & F2 & F3) & HC); auto.
    + apply sep_perm with D; auto. apply Permutation_sym, Ho.
    + intros x Hx. apply S2. apply (Permutation_in _ (Ho D)); auto.
    + rewrite EM. cbn [bind]. exists h', (filter (fun r => negb (isclose0 (m_coeff (h' r)))) refs').
      split; auto.
      assert (HN : NoDup (map (skey h) refs')).
      { apply (NoDup_count_occ key_dec). intros k. destruct (HC k) as [HC1 HC2].
        destruct (in_dec key_dec k (map (skey h) (ord D))) as [Hk|Hk].
        - apply in_map_iff in Hk. destruct Hk as (d & Ed & Hd). rewrite HC1; [lia|]. exists d; auto.
        - rewrite HC2. 2: { intros d Hd Ek. apply Hk. apply in_map_iff. exists d; auto. }
          destruct (le_lt_dec (cnt h k refs) 1) as [?|Hc]; auto. exfalso.
          assert (Hin : In k (map (skey h) refs)).
          { apply (count_occ_In key_dec). lia. }
          apply in_map_iff in Hin. destruct Hin as (r & <- & Hr).
          destruct (S3 r Hr) as (d & Hd & Ed).
          { unfold multi. apply Nat.ltb_lt. rewrite (cnt_eqo h refs r) by (auto; apply incl_refl). auto. }
          apply Hk. apply in_map_iff. exists d. split.
          * apply eqo_key in Ed. auto.
          * apply (Permutation_in _ (Permutation_sym (Ho D))); auto. }
      destruct (Fin h' (filter (fun r => negb (isclose0 (m_coeff (h' r)))) refs')) as [G1 G2].
      { apply map_filter_NoDup; auto. }
      { intros r; apply F3. }
      split; auto. split; auto.
      intros _ r Hr. apply filter_In in Hr. apply negb_true_iff; tauto.
Qed.

Definition heap_of (l : list mono) : heap := fun r => nth r l (mk_mono []).

(** [PauliSum([(1+i)X, (1-i)X, 1.0 X])] keeps two equal terms; [PauliSum([0.0 X])] keeps a zero. *)
Definition h_mix : heap := heap_of [X0 (gadd g1 gi); X0 (gsub g1 gi); X0 g1].

Lemma heap_of_fresh l : Forall fresh l -> forall r, r < length l -> fresh (heap_of l r).
Proof.
  intros H r Hr. rewrite Forall_forall in H. apply H. apply nth_In; auto.
Qed.

Lemma simplify_refuted :
  (exists h refs, (forall r, In r refs -> fresh (h r)) /\ NoDup refs /\ same_len h refs /\
    forall ord, reorders ord ->
      exists h' refs' r s, psum_init ord h refs = Ok (h', refs') /\ In r refs' /\ In s refs' /\
        r <> s /\ mono_eq (h' r) (h' s) = Ok true) /\
  (exists h refs, (forall r, In r refs -> fresh (h r)) /\ NoDup refs /\ same_len h refs /\
    forall ord, exists h' refs' r, psum_init ord h refs = Ok (h', refs') /\ In r refs' /\
      m_coeff (h' r) = g0).
Proof.
  split.
  - exists h_mix, [0; 1; 2]. split; [|split; [|split]].
    + intros r Hr. simpl in Hr.
      destruct Hr as [<-|[<-|[<-|[]]]]; apply single_fresh; lia.
    + repeat constructor; simpl; intuition lia.
    + intros r s Hr Hs. simpl in Hr, Hs.
      destruct Hr as [<-|[<-|[<-|[]]]], Hs as [<-|[<-|[<-|[]]]]; reflexivity.
    + intros ord Ho.
      assert (E : ord [0] = [0]).
      { apply Permutation_length_1_inv. apply Permutation_sym, Ho. }
      exists (hset h_mix 0 (gsum h_mix [0; 1])), [0; 2], 0, 2.
      assert (D : duplicates h_mix [0; 1; 2] = Ok [0]) by (vm_compute; reflexivity).
      split; [|split; [left; auto|split; [right; left; auto|split; [lia|]]]].
      * rewrite psum_init_len.
        2: { intros r s Hr Hs. simpl in Hr, Hs.
             destruct Hr as [<-|[<-|[<-|[]]]], Hs as [<-|[<-|[<-|[]]]]; reflexivity. }
        unfold simplify. rewrite D. cbn [bind]. rewrite E. cbn [merge_loop].
        destruct (merge_step_ok h_mix [0; 1; 2] 0) as (l1 & r0 & l2 & EE & H1 & H2 & HM).
        { intros r s Hr Hs. simpl in Hr, Hs.
          destruct Hr as [<-|[<-|[<-|[]]]], Hs as [<-|[<-|[<-|[]]]]; reflexivity. }
        { left; auto. }
        assert (l1 = []).
        { destruct l1 as [|x l1]; auto. injection EE as <- _.
          assert (F : eqo h_mix 0 0 = false) by (apply H1; left; auto). vm_compute in F; discriminate. }
        subst l1. injection EE as <- <-.
        rewrite HM. cbn [bind app].
        assert (F1 : filter (fun r => negb (eqo h_mix r 0)) [1; 2] = [2]) by (vm_compute; reflexivity).
        assert (F2 : filter (fun r => eqo h_mix r 0) [0; 1; 2] = [0; 1]) by (vm_compute; reflexivity).
        rewrite F1, F2.
        assert (F3 : filter (fun r => negb (isclose0 (m_coeff (hset h_mix 0 (gsum h_mix [0; 1]) r)))) [0; 2] = [0; 2])
          by (vm_compute; reflexivity).
        rewrite F3. reflexivity.
      * vm_compute; reflexivity.
  - exists (heap_of [X0 g0]), [0]. split; [|split; [|split]].
    + intros r [<-|[]]. apply single_fresh; lia.
    + repeat constructor. simpl; auto.
    + intros r s [<-|[]] [<-|[]]; reflexivity.
    + intros ord. exists (heap_of [X0 g0]), [0], 0. split; [|split].
      * rewrite psum_init_len; [|intros r s [<-|[]] [<-|[]]; reflexivity].
        unfold simplify.
        assert (D : duplicates (heap_of [X0 g0]) [0] = Ok []) by (vm_compute; reflexivity).
        rewrite D. reflexivity.
      * left; auto.
      * simpl. apply gq_eq; simpl; ring.
Qed.

(** ** Addition *)

Lemma denote_sum_app n h a b :
  meq (2 ^ n) (denote_sum n h (a ++ b)) (madd (denote_sum n h a) (denote_sum n h b)).
Proof. intros i j _ _. unfold denote_sum, msum, madd. apply lsum_app. Qed.

Lemma psum_add_partial ord h a b : reorders ord -> same_len h (a ++ b) ->
  (exists h' refs' dropped, psum_add ord h a b = Ok (h', refs') /\
    incl refs' (a ++ b) /\ incl dropped (a ++ b) /\
    (forall r, In r dropped -> isclose0 (m_coeff (h' r)) = true) /\
    forall n, meq (2 ^ n) (madd (denote_sum n h a) (denote_sum n h b))
                          (madd (denote_sum n h' refs') (denote_sum n h' dropped))) /\
  (~ has_equal h (a ++ b) -> psum_add ord h a b = Ok (h, a ++ b)).
Proof.
  intros Ho Hl. split.
  - destruct (psum_init_spec ord h (a ++ b) Ho) as [H _].
    destruct (H Hl) as (h' & refs' & dr & E & I1 & I2 & L & F & P & C & D).
    exists h', refs', dr. split; [exact E|]. repeat split; auto.
    intros n. rewrite <- D, denote_sum_app. reflexivity.
  - intros Hn. unfold psum_add. rewrite psum_init_len by auto. unfold simplify.
    rewrite duplicates_ok by auto. cbn [bind].
    destruct (dups_of h (a ++ b)) as [|d t] eqn:E; auto. exfalso. apply Hn.
    destruct (dups_props h (a ++ b)) as (_ & S2 & _ & S4).
    assert (Hd : In d (dups_of h (a ++ b))) by (rewrite E; left; auto).
    specialize (S4 d Hd). specialize (S2 d Hd).
    unfold multi in S4. apply Nat.ltb_lt in S4.
    (* two positions *)
    assert (P : forall (f : nat -> bool) l, 1 < length (filter f l) ->
        exists i j r s, i <> j /\ nth_error l i = Some r /\ nth_error l j = Some s /\ f r = true /\ f s = true).
    { clear. intros f. induction l as [|x l IH]; simpl; intros H; [lia|].
      destruct (f x) eqn:Ex.
      - simpl in H. assert (H2 : 0 < length (filter f l)) by lia.
        destruct (filter f l) as [|y t] eqn:F; [simpl in H2; lia|].
        assert (Hy : In y (filter f l)) by (rewrite F; left; auto).
        apply filter_In in Hy. destruct Hy as [Hy Fy]. apply In_nth_error in Hy. destruct Hy as [k Hk].
        exists 0, (S k), x, y. repeat split; auto.
      - destruct IH as (i & j & r & s & H1 & H2 & H3 & H4 & H5); auto.
        exists (S i), (S j), r, s. repeat split; auto. }
    apply P in S4. destruct S4 as (i & j & r & s & H1 & H2 & H3 & H4 & H5).
    exists i, j, r, s. repeat split; auto.
    rewrite eqo_ok.
    + f_equal. apply eqo_trans with d; auto. apply eqo_sym; auto.
    + apply Hl; eapply nth_error_In; eauto.
Qed.

(** X + X: the left operand is changed to 2X. *)
Lemma psum_add_refuted : exists h a b, (forall r, In r (a ++ b) -> fresh (h r)) /\ NoDup (a ++ b) /\
  exists h' refs', psum_add ord_id h a b = Ok (h', refs') /\
    ~ meq (2 ^ 1) (denote_sum 1 h' a) (denote_sum 1 h a).
Proof.
  exists (heap_of [X0 g1; X0 g1]), [0], [1]. split; [|split].
  - intros r Hr. simpl in Hr. destruct Hr as [<-|[<-|[]]]; apply single_fresh; lia.
  - repeat constructor; simpl; intuition lia.
  - do 2 eexists. split; [reflexivity|].
    apply meq_differ with (i := 0) (j := 1); [simpl; lia|simpl; lia|]. vm_compute. reflexivity.
Qed.

(** ** Scalar multiplication *)

Lemma scalar_fold h refs c : NoDup refs ->
  let h' := fold_left (fun h r => hset h r (gmul (m_coeff (h r)) c)) refs h in
  (forall r, In r refs -> h' r = set_coeff (h r) (gmul (m_coeff (h r)) c)) /\
  (forall r, ~ In r refs -> h' r = h r).
Proof.
  revert h; induction refs as [|r t IH]; intros h Hn; cbn [fold_left].
  - split; [intros ? []|auto].
  - inversion Hn as [|x y Hr Hn']; subst.
    destruct (IH (hset h r (gmul (m_coeff (h r)) c)) Hn') as [H1 H2]. split.
    + intros s [<-|Hs].
      * rewrite H2 by auto. apply hset_same.
      * rewrite H1 by auto. rewrite hset_other by (intros ->; contradiction). auto.
    + intros s Hs. rewrite H2 by (intros X; apply Hs; right; auto).
      apply hset_other. intros ->; apply Hs; left; auto.
Qed.

Lemma scalar_mul_spec h refs c : NoDup refs ->
  exists h', scalar_mul h refs (SNum c) = Ok h' /\
    (forall n, meq (2 ^ n) (denote_sum n h' refs) (mscale c (denote_sum n h refs))) /\
    (forall r, ~ In r refs -> h' r = h r) /\
    (forall r, m_paulis (h' r) = m_paulis (h r) /\ m_locs (h' r) = m_locs (h r)).
Proof.
  intros Hn. destruct (scalar_fold h refs c Hn) as [H1 H2].
  eexists; split; [reflexivity|].
  set (h' := fold_left _ refs h) in *. repeat split; auto.
  - intros n i j _ _. unfold denote_sum, msum, mscale.
    change (@kmul gq GaussQ c) with (@kmul gq GaussQ c). rewrite <- lsum_scale_l. apply lsum_ext.
    intros r Hr. rewrite H1 by auto.
    change (gmul (gmul (m_coeff (h r)) c) (pword (mono_string n (h r)) i j) =
            gmul c (gmul (m_coeff (h r)) (pword (mono_string n (h r)) i j))). ring.
  - destruct (in_dec Nat.eq_dec r refs); [rewrite H1|rewrite H2]; auto.
  - destruct (in_dec Nat.eq_dec r refs); [rewrite H1|rewrite H2]; auto.
Qed.

Lemma scalar_mul_type h refs : scalar_mul h refs SOther = Err AssertionError.
Proof. reflexivity. Qed.

(** ** Subtraction *)

Lemma psum_sub_partial ord h a b : reorders ord -> same_len h (a ++ b) ->
  NoDup b -> (forall r, In r a -> ~ In r b) ->
  exists h' refs' dropped, psum_sub ord h a b = Ok (h', refs') /\
    incl refs' (a ++ b) /\ incl dropped (a ++ b) /\
    (forall r, In r dropped -> isclose0 (m_coeff (h' r)) = true) /\
    forall n, meq (2 ^ n) (msub (denote_sum n h a) (denote_sum n h b))
                          (madd (denote_sum n h' refs') (denote_sum n h' dropped)).
Proof.
  intros Ho Hl Hn Hd. unfold psum_sub.
  destruct (scalar_mul_spec h b (gopp g1) Hn) as (h1 & E1 & D1 & F1 & P1). rewrite E1. cbn [bind].
  assert (Hl1 : same_len h1 (a ++ b)).
  { intros r s Hr Hs. rewrite (proj1 (P1 r)), (proj1 (P1 s)). apply Hl; auto. }
  destruct (psum_init_spec ord h1 (a ++ b) Ho) as [H _].
  destruct (H Hl1) as (h' & refs' & dr & E & I1 & I2 & L & F & P & C & D).
  exists h', refs', dr. repeat split; auto.
  intros n. rewrite <- D, denote_sum_app, D1.
  intros i j _ _. unfold msub, madd, mscale, denote_sum, msum.
  rewrite (lsum_ext (fun r => denote n (h1 r) i j) (fun r => denote n (h r) i j) a).
  - simpl. ring.
  - intros r Hr. rewrite F1; auto.
Qed.

(** A - A is -2A, and A - B leaves B negated. *)
Lemma psum_sub_refuted :
  (exists h a h' refs', (forall r, In r a -> fresh (h r)) /\ NoDup a /\
     psum_sub ord_id h a a = Ok (h', refs') /\
     meq (2 ^ 1) (denote_sum 1 h' refs') (mscale (gofQ (-2 # 1)) (denote_sum 1 h a)) /\
     ~ meq (2 ^ 1) (denote_sum 1 h' refs') mzero) /\
  (exists h a b h' refs', (forall r, In r (a ++ b) -> fresh (h r)) /\ NoDup (a ++ b) /\
     psum_sub ord_id h a b = Ok (h', refs') /\
     ~ meq (2 ^ 1) (denote_sum 1 h' b) (denote_sum 1 h b)).
Proof.
  split.
  - exists (heap_of [X0 g1]), [0]. do 2 eexists. split; [|split; [|split; [reflexivity|split]]].
    + intros r [<-|[]]. apply single_fresh; lia.
    + repeat constructor. simpl; auto.
    + intros i j Hi Hj. simpl in Hi, Hj.
      destruct i as [|[|i]], j as [|[|j]]; try lia; apply gq_eq; apply Qc_is_canon; vm_compute; reflexivity.
    + apply meq_differ with (i := 0) (j := 1); [simpl; lia|simpl; lia|]. vm_compute. reflexivity.
  - exists (heap_of [X0 g1; mk_mono [{| p_alpha := 0; p_gamma := 3; p_coeff := g1 |}]]), [0], [1].
    do 2 eexists. split; [|split; [|split; [reflexivity|]]].
    + intros r Hr. simpl in Hr. destruct Hr as [<-|[<-|[]]]; apply single_fresh; lia.
    + repeat constructor; simpl; intuition lia.
    + apply meq_differ with (i := 0) (j := 0); [simpl; lia|simpl; lia|]. vm_compute. reflexivity.
Qed.

(** ** Products of sums *)

Lemma ss_lt_ext l l' : StronglySorted lt l -> StronglySorted lt l' ->
  (forall x, In x l <-> In x l') -> l = l'.
Proof.
  revert l'; induction l as [|x l IH]; intros [|y l'] H1 H2 H; auto.
  - exfalso. apply (H y); left; auto.
  - exfalso. apply (H x); left; auto.
  - apply StronglySorted_inv in H1, H2. destruct H1 as [H1 F1], H2 as [H2 F2].
    rewrite Forall_forall in F1, F2.
    assert (x = y).
    { assert (A : In x (y :: l')) by (apply H; left; auto).
      assert (B : In y (x :: l)) by (apply H; left; auto).
      destruct A as [A|A]; auto. destruct B as [B|B]; auto.
      apply F2 in A. apply F1 in B. lia. }
    subst y. f_equal. apply IH; auto. intros z. split; intros Hz.
    + assert (A : In z (x :: l')) by (apply H; right; auto). destruct A as [<-|A]; auto.
      apply F1 in Hz. lia.
    + assert (A : In z (x :: l)) by (apply H; right; auto). destruct A as [<-|A]; auto.
      apply F2 in Hz. lia.
Qed.

Lemma alloc_products_ok ordm n L : reorders ordm -> forall pairs h next,
  (forall i j, In (i, j) pairs -> i < next /\ j < next /\ fresh (h i) /\ fresh (h j) /\
     m_locs (h i) = L /\ m_locs (h j) = L /\ sites_below n (h i) /\ sites_below n (h j)) ->
  exists h' next' refs, alloc_products ordm h next pairs = Ok (h', next', refs) /\
    (forall r, r < next -> h' r = h r) /\
    (forall r, In r refs -> next <= r < next' /\ length (m_paulis (h' r)) = length L) /\ next <= next' /\
    meq (2 ^ n) (denote_sum n h' refs)
      (msum (fun ij => mmul (2 ^ n) (denote n (h (fst ij))) (denote n (h (snd ij)))) pairs).
Proof.
  intros Ho. induction pairs as [|[i j] t IH]; intros h next H; cbn [alloc_products].
  - exists h, next, []. repeat split; auto; try (intros ? []). contradiction. contradiction. contradiction.
  - destruct (H i j (or_introl eq_refl)) as (Li & Lj & Fi & Fj & Ei & Ej & Bi & Bj).
    destruct (mono_mul_spec ordm (h i) (h j) n Ho Fi Fj Bi Bj) as (m & Em & Bm & Dm).
    destruct (mono_mul_wf_spec ordm (h i) (h j) Ho Fi Fj) as (m' & Em' & Fm & Sm & Im & Lm & _).
    rewrite Em in Em'. injection Em' as <-. rewrite Em. cbn [bind].
    assert (HA : forall r, r < next -> halloc h next m r = h r).
    { intros r Hr. unfold halloc. replace (r =? next) with false by (symmetry; apply Nat.eqb_neq; lia). auto. }
    assert (HL : length (m_paulis m) = length L).
    { rewrite <- (map_length p_alpha), <- Lm.
      rewrite (ss_lt_ext (m_locs m) L); auto.
      - rewrite <- Ei. apply fresh_wfc in Fi. destruct Fi as ((X & Y & _) & _). rewrite X; auto.
      - intros x. rewrite Im, Ei, Ej. tauto. }
    destruct (IH (halloc h next m) (S next)) as (h' & next' & refs & E & G1 & G2 & G3 & G4).
    { intros i' j' Hij. destruct (H i' j' (or_intror Hij)) as (A1 & A2 & A3 & A4 & A5 & A6 & A7 & A8).
      rewrite !HA by auto. repeat split; auto. }
    rewrite E. cbn [bind]. exists h', next', (next :: refs).
    assert (Hnext : h' next = m).
    { rewrite G1 by lia. unfold halloc. rewrite Nat.eqb_refl; auto. }
    split; [auto|]. split; [|split; [|split]].
    + intros r Hr. rewrite G1 by lia. auto.
    + intros r [<-|Hr].
      * rewrite Hnext. split; [lia|auto].
      * destruct (G2 r Hr). split; [lia|auto].
    + lia.
    + intros x y Hx Hy. unfold denote_sum, msum in *. rewrite !lsum_cons. rewrite Hnext. cbn [fst snd].
      rewrite (Dm x y Hx Hy). f_equal. rewrite (G4 x y Hx Hy). apply lsum_ext.
      intros [i' j'] Hij. cbn [fst snd]. destruct (H i' j' (or_intror Hij)) as (A1 & A2 & _).
      rewrite !HA by auto. auto.
Qed.

Lemma psum_mul_spec ordm ord h next a b n L : reorders ordm -> reorders ord ->
  (forall r, In r (a ++ b) -> r < next /\ fresh (h r) /\ m_locs (h r) = L /\ sites_below n (h r)) ->
  exists h' next' refs' dropped, psum_mul ordm ord h next a b = Ok (h', next', refs') /\
    (forall r, r < next -> h' r = h r) /\
    (forall r, In r (refs' ++ dropped) -> next <= r < next') /\
    (forall r, In r dropped -> isclose0 (m_coeff (h' r)) = true) /\
    meq (2 ^ n) (mmul (2 ^ n) (denote_sum n h a) (denote_sum n h b))
                (madd (denote_sum n h' refs') (denote_sum n h' dropped)).
Proof.
  intros Hom Ho H. unfold psum_mul.
  destruct (alloc_products_ok ordm n L Hom (flat_map (fun i => map (fun j => (i, j)) b) a) h next)
    as (h1 & next1 & refs & E & G1 & G2 & G3 & G4).
  { intros i j Hij. apply in_flat_map in Hij. destruct Hij as (i' & Hi & Hj).
    apply in_map_iff in Hj. destruct Hj as (j' & Eq & Hj). injection Eq as -> ->.
    destruct (H i) as (A1 & A2 & A3 & A4); [rewrite in_app_iff; auto|].
    destruct (H j) as (B1 & B2 & B3 & B4); [rewrite in_app_iff; auto|]. repeat split; auto. }
  rewrite E. cbn [bind].
  destruct (psum_init_spec ord h1 refs Ho) as [HI _].
  destruct HI as (h2 & refs2 & dr & E2 & I1 & I2 & LL & F & P & C & D).
  { intros r s Hr Hs. destruct (G2 r Hr) as [_ ->], (G2 s Hs) as [_ ->]; auto. }
  rewrite E2. cbn [bind]. exists h2, next1, refs2, dr. split; [auto|]. split; [|split; [|split]]; auto.
  - intros r Hr. rewrite F.
    + apply G1; auto.
    + intros Hi. destruct (G2 r Hi) as [? _]. lia.
  - intros r Hr. rewrite in_app_iff in Hr. apply G2. destruct Hr as [Hr|Hr]; [apply I1|apply I2]; auto.
  - rewrite <- D, G4. unfold denote_sum.
    rewrite mmul_msum_l. intros x y Hx Hy. unfold msum. rewrite lsum_flat_map.
    apply lsum_ext. intros i Hi. rewrite lsum_map. cbn [fst snd].
    pose proof (mmul_msum_r (2 ^ n) (fun r => denote n (h r)) b (denote n (h i)) x y Hx Hy) as X.
    unfold msum in X. exact X.
Qed.

(** Terms on different sites (X0 + X1): the product raises. *)
Lemma psum_mul_refuted : exists h next a, (forall r, In r a -> r < next /\ fresh (h r)) /\ NoDup a /\
  psum_init ord_id h a = Ok (h, a) /\ psum_mul ord_id ord_id h next a a = Err AssertionError.
Proof.
  exists (heap_of [X0 g1; X1 g1]), 2, [0; 1]. split; [|split; [|split]].
  - intros r Hr. simpl in Hr. destruct Hr as [<-|[<-|[]]]; (split; [lia|apply single_fresh; lia]).
  - repeat constructor; simpl; intuition lia.
  - reflexivity.
  - vm_compute. reflexivity.
Qed.
