(** Pauli words as a basis: entries, traces, completeness, words on some wires. *)
From Coq Require Import List Arith Lia Bool Permutation Ring Setoid Morphisms.
From Verif Require Import Py StarRing Matrix PauliSpec Bits.
Import ListNotations.
Local Open Scope nat_scope.

(** all words of length n over 0..b-1, first letter slowest *)
Fixpoint words (b n : nat) : list (list nat) :=
  match n with
  | 0 => [[]]
  | S n' => flat_map (fun g => map (cons g) (words b n')) (seq 0 b)
  end.

Lemma words_spec b n w : In w (words b n) <-> length w = n /\ Forall (fun g => g < b) w.
Proof.
  revert w; induction n as [|n IH]; intros w; simpl.
  - split; [intros [<-|[]]; auto|]. intros [H _]; destruct w; [auto|discriminate].
  - rewrite in_flat_map. split.
    + intros (g & Hg & Hw). apply in_map_iff in Hw. destruct Hw as (v & <- & Hv).
      apply IH in Hv. apply in_seq in Hg. destruct Hv; split; simpl; auto. constructor; auto; lia.
    + intros [H1 H2]. destruct w as [|g w]; [discriminate|]. inversion H2; subst. injection H1 as H1.
      exists g; split; [apply in_seq; lia|]. apply in_map, IH; auto.
Qed.

Lemma NoDup_flat_map_disj {A B} (f : A -> list B) l :
  NoDup l -> (forall x, In x l -> NoDup (f x)) ->
  (forall x y z, In x l -> In y l -> In z (f x) -> In z (f y) -> x = y) -> NoDup (flat_map f l).
Proof.
  induction 1 as [|a l Ha Hl IH]; intros H1 H2; simpl; [constructor|].
  apply NoDup_app_intro.
  - apply H1; left; auto.
  - apply IH; [intros; apply H1; right; auto|]. intros x y z Hx Hy; apply H2; right; auto.
  - intros z Hz Hz'. apply in_flat_map in Hz'. destruct Hz' as (y & Hy & Hz').
    assert (a = y) by (apply (H2 a y z); simpl; auto). subst; auto.
Qed.

Lemma words_NoDup b n : NoDup (words b n).
Proof.
  induction n as [|n IH]; simpl; [repeat constructor; simpl; tauto|].
  apply NoDup_flat_map_disj; [apply seq_NoDup|intros; apply map_cons_NoDup; auto|].
  intros x y z _ _ Hx Hy. apply in_map_iff in Hx. apply in_map_iff in Hy.
  destruct Hx as (? & <- & _), Hy as (? & E & _). injection E; auto.
Qed.

Lemma words_length b n : length (words b n) = b ^ n.
Proof.
  induction n as [|n IH]; simpl; auto. rewrite <- IH. generalize (words b n) as l. intros l. clear.
  assert (H : forall s, length (flat_map (fun g => map (cons g) l) (seq s b)) = b * length l).
  { induction b as [|b IHb]; intros s; simpl; auto. rewrite app_length, map_length, IHb; auto. }
  apply H.
Qed.

Section S.
Context {K : Type} {SR : StarRing K}.
Add Ring Kr : (@k_ring K SR).
Local Open Scope K_scope.

Fixpoint knat (n : nat) : K := match n with O => 0 | S m => 1 + knat m end.
Lemma knat_add n m : knat (n + m) = knat n + knat m.
Proof. induction n; simpl; [ring|rewrite IHn; ring]. Qed.
Lemma knat_mul n m : knat (n * m) = knat n * knat m.
Proof. induction n; simpl; [ring|rewrite knat_add, IHn; ring]. Qed.
Lemma lsum_const {A} (c : K) (l : list A) : lsum (fun _ => c) l = knat (length l) * c.
Proof. induction l; [simpl; ring|]. rewrite lsum_cons, IHl. simpl. ring. Qed.
Lemma kconj_knat n : kconj (knat n) = knat n.
Proof. induction n; simpl; [apply kconj_0|]. rewrite kconj_add, IHn, kconj_k1. auto. Qed.

(** ** Entries *)

Fixpoint kbit (l : list (mat K)) (bi bj : list nat) : K :=
  match l, bi, bj with A :: r, a :: bi', b :: bj' => A a b * kbit r bi' bj' | _, _, _ => 1 end.

Lemma kronl_entry l : forall i j, (i < 2 ^ length l)%nat -> (j < 2 ^ length l)%nat ->
  kronl l i j = kbit l (bits (length l) i) (bits (length l) j).
Proof.
  induction l as [|A l IH]; intros i j Hi Hj; simpl.
  - simpl in *. replace i with 0%nat by lia. replace j with 0%nat by lia. reflexivity.
  - unfold kron. rewrite IH by (apply Nat.mod_upper_bound, pow2_nz). auto.
Qed.

Lemma kbit_kprod l : forall bi bj, length bi = length l -> length bj = length l ->
  kbit l bi bj = kprod (fun p => nth p l mzero (nth p bi 0%nat) (nth p bj 0%nat)) (seq 0 (length l)).
Proof.
  induction l as [|A l IH]; intros bi bj Hi Hj; auto.
  destruct bi as [|a bi]; [discriminate|]. destruct bj as [|b bj]; [discriminate|].
  simpl. f_equal. rewrite <- seq_shift, kprod_map. apply IH; simpl in *; auto.
Qed.

Lemma pword_entry n w i j : length w = n -> (i < 2 ^ n)%nat -> (j < 2 ^ n)%nat ->
  pword w i j = kprod (fun p => sigma (nth p w 0%nat) (nth p (bits n i) 0%nat) (nth p (bits n j) 0%nat)) (seq 0 n).
Proof.
  intros <- Hi Hj. unfold pword. rewrite kronl_entry by (rewrite map_length; auto).
  rewrite map_length, kbit_kprod by (rewrite bits_length, map_length; auto).
  rewrite map_length. apply kprod_ext. intros p Hp. apply in_seq in Hp.
  rewrite (nth_indep (map sigma w) mzero (sigma 0%nat)) by (rewrite map_length; lia).
  rewrite map_nth. auto.
Qed.

(** ** Words on some wires *)

(** the n-letter word with the letters [gs] on the wires [ws] and I elsewhere *)
Definition place (n : nat) (ws gs : list nat) : list nat :=
  map (fun p => match index_of p ws with Some i => nth i gs 0%nat | None => 0%nat end) (seq 0 n).

Lemma place_length n ws gs : length (place n ws gs) = n.
Proof. unfold place. rewrite map_length, seq_length; auto. Qed.

Lemma nth_place n ws gs p : (p < n)%nat ->
  nth p (place n ws gs) 0%nat = match index_of p ws with Some i => nth i gs 0%nat | None => 0%nat end.
Proof. intros H. unfold place. rewrite nth_map_seq; auto. Qed.

Lemma place_letters n ws gs m : Forall (fun g => g < m)%nat gs -> (0 < m)%nat -> Forall (fun g => g < m)%nat (place n ws gs).
Proof.
  intros H Hm. apply Forall_forall. intros x Hx. apply in_map_iff in Hx. destruct Hx as (p & <- & _).
  destruct (index_of p ws) as [i|]; auto.
  destruct (Nat.lt_ge_cases i (length gs)); [|rewrite nth_overflow; auto].
  rewrite Forall_forall in H. apply H, nth_In; auto.
Qed.

Lemma kprod_zero {A} (f : A -> K) l a : In a l -> f a = 0 -> kprod f l = 0.
Proof.
  induction l as [|b l IH]; simpl; [tauto|]. intros [->|Hi] E; [rewrite E; ring|].
  rewrite IH; auto. ring.
Qed.


Lemma emb_pword n ws gs : wires_ok n ws -> length gs = length ws ->
  meq (2 ^ n) (emb n ws (pword gs)) (pword (place n ws gs)).
Proof.
  intros Hw Hl r c Hr Hc. rewrite (pword_entry n) by (rewrite ?place_length; auto).
  rewrite (kprod_perm _ _ _ (Permutation_sym (rest_perm n ws Hw))), kprod_app.
  assert (Hlt : forall p, In p ws -> (p < n)%nat) by (destruct Hw as [_ H]; rewrite Forall_forall in H; auto).
  unfold emb. destruct (agree_off n ws (bits n r) (bits n c)) eqn:E.
  - rewrite agree_off_spec in E. rewrite (kprod_1 _ (rest n ws)).
    2:{ intros p Hp. apply rest_In in Hp. destruct Hp as [Hp Hn]. rewrite nth_place by auto.
        destruct (index_of p ws) eqn:Ei; [apply index_of_Some, nth_error_In in Ei; contradiction|].
        rewrite E by auto. simpl. apply mid_eq. }
    rewrite (pword_entry (length ws)) by (auto; apply sel_lt; auto).
    transitivity (kprod (fun i => sigma (nth (nth i ws 0%nat) (place n ws gs) 0%nat) (nth (nth i ws 0%nat) (bits n r) 0%nat) (nth (nth i ws 0%nat) (bits n c) 0%nat)) (seq 0 (length ws))).
    + apply kprod_ext. intros i Hi. apply in_seq in Hi.
      assert (Hi' : (i < length ws)%nat) by lia.
      rewrite !bits_unbits by (eapply sel_bitlist, bits_bitlist; eauto).
      rewrite !nth_sel by auto. rewrite nth_place by (apply Hlt, nth_In; auto).
      rewrite index_of_nth by (auto; apply Hw). auto.
    + rewrite <- (kprod_map (fun i => nth i ws 0%nat) (fun p => sigma (nth p (place n ws gs) 0%nat) (nth p (bits n r) 0%nat) (nth p (bits n c) 0%nat))).
      rewrite map_nth_self. ring.
  - assert (Hex : exists p, In p (rest n ws) /\ nth p (bits n r) 0%nat <> nth p (bits n c) 0%nat).
    { unfold agree_off in E. apply not_true_iff_false in E.
      rewrite forallb_forall in E.
      destruct (existsb (fun p => negb (mem p ws || Nat.eqb (nth p (bits n r) 0%nat) (nth p (bits n c) 0%nat))) (seq 0 n)) eqn:Ex.
      - apply existsb_exists in Ex. destruct Ex as (p & Hp & Hx). apply negb_true_iff, orb_false_iff in Hx.
        destruct Hx as [Hx1 Hx2]. exists p. split; [|apply Nat.eqb_neq; auto]. apply rest_In. apply in_seq in Hp.
        split; [lia|]. intros Hi. apply mem_In in Hi. congruence.
      - exfalso. apply E. intros p Hp. destruct (mem p ws || _) eqn:Ep; auto.
        assert (existsb (fun p => negb (mem p ws || Nat.eqb (nth p (bits n r) 0%nat) (nth p (bits n c) 0%nat))) (seq 0 n) = true).
        { apply existsb_exists. exists p. rewrite Ep. auto. }
        congruence. }
    destruct Hex as (p & Hp & Hne). rewrite (kprod_zero _ (rest n ws) p); auto; [ring|].
    apply rest_In in Hp. destruct Hp as [Hp Hn]. rewrite nth_place by auto.
    destruct (index_of p ws) eqn:Ei; [apply index_of_Some, nth_error_In in Ei; contradiction|].
    simpl. apply mid_neq; auto.
Qed.

(** ** Traces *)

Lemma kronl_trace {A} (f : A -> mat K) l :
  mtrace (2 ^ length l) (kronl (map f l)) = kprod (fun x => mtrace 2 (f x)) l.
Proof.
  induction l as [|a l IH]; cbn [map kronl length kprod fold_right].
  - unfold mtrace. simpl. unfold mid. simpl. ring.
  - rewrite !map_length, pow2_S, kron_trace, IH. auto.
Qed.

Lemma sigma_trace g : (g <= 3)%nat -> mtrace 2 (sigma g) = if Nat.eqb g 0 then knat 2 else 0.
Proof.
  intros H. do 4 (destruct g as [|g]; [unfold mtrace; simpl; unfold mid; simpl; ring|]). lia.
Qed.

Lemma pword_trace w : Forall (fun g => g <= 3)%nat w ->
  mtrace (2 ^ length w) (pword w) = if forallb (Nat.eqb 0) w then knat (2 ^ length w) else 0.
Proof.
  intros H. unfold pword. rewrite kronl_trace. induction H as [|g w Hg Hw IH]; [simpl; ring|].
  cbn [kprod fold_right forallb length]. rewrite pow2_S, knat_mul. unfold kprod in IH. rewrite IH, sigma_trace by auto.
  rewrite (Nat.eqb_sym 0 g). destruct (Nat.eqb g 0); simpl; [destruct (forallb _ w); ring|ring].
Qed.

Lemma sigma_pair_trace g h : (g <= 3)%nat -> (h <= 3)%nat ->
  mtrace 2 (mmul 2 (sigma g) (sigma h)) = if Nat.eqb g h then knat 2 else 0.
Proof.
  intros Hg Hh. pose proof ki_sq as Hi.
  do 4 (destruct g as [|g]; [do 4 (destruct h as [|h]; [unfold mtrace, mmul; simpl; unfold mid; simpl; ring [Hi]|]); lia|]). lia.
Qed.

Definition weqb (v w : list nat) : bool := if list_eq_dec Nat.eq_dec v w then true else false.

Lemma pword_pair_trace w : forall v, length v = length w ->
  Forall (fun g => g <= 3)%nat w -> Forall (fun g => g <= 3)%nat v ->
  mtrace (2 ^ length w) (mmul (2 ^ length w) (pword w) (pword v)) = if weqb w v then knat (2 ^ length w) else 0.
Proof.
  induction w as [|g w IH]; intros v Hl Hw Hv.
  - destruct v; [|discriminate]. unfold mtrace, mmul, pword. simpl. unfold mid; simpl. ring.
  - destruct v as [|h v]; [discriminate|]. inversion Hw; inversion Hv; subst. injection Hl as Hl.
    cbn [pword map kronl length]. rewrite !map_length, Hl.
    rewrite pow2_S, kron_mul, kron_trace, sigma_pair_trace by auto.
    unfold pword in IH. rewrite (IH v) by auto. rewrite knat_mul.
    unfold weqb. destruct (Nat.eqb_spec g h) as [->|N], (list_eq_dec Nat.eq_dec w v) as [->|N'];
      (destruct (list_eq_dec Nat.eq_dec _ _) as [E|E]; [try (injection E; intros; congruence)|try congruence]); try ring.
Qed.

(** ** Completeness *)

Lemma sigma_complete i j k l : (i < 2)%nat -> (j < 2)%nat -> (k < 2)%nat -> (l < 2)%nat ->
  lsum (fun g => sigma g i j * sigma g k l) (seq 0 4) = knat 2 * (mid i l * mid j k).
Proof.
  intros Hi Hj Hk Hl. pose proof ki_sq as Hs.
  destruct i as [|[|i]]; [| |lia]; (destruct j as [|[|j]]; [| |lia]);
  (destruct k as [|[|k]]; [| |lia]); (destruct l as [|[|l]]; [| |lia]);
  simpl; unfold mid; simpl; ring [Hs].
Qed.

Lemma mid_divmod d i l : (0 < d)%nat -> mid (i / d) (l / d) * mid (i mod d) (l mod d) = mid (K:=K) i l.
Proof.
  intros Hd. apply (kron_id (S (i + l)) d Hd i l); nia.
Qed.

Lemma words_complete n : forall i j k l,
  (i < 2 ^ n)%nat -> (j < 2 ^ n)%nat -> (k < 2 ^ n)%nat -> (l < 2 ^ n)%nat ->
  lsum (fun w => pword w i j * pword w k l) (words 4 n) = knat (2 ^ n) * (mid i l * mid j k).
Proof.
  induction n as [|n IH]; intros i j k l Hi Hj Hk Hl.
  - simpl in *. replace i with 0%nat by lia. replace j with 0%nat by lia.
    replace k with 0%nat by lia. replace l with 0%nat by lia. unfold pword. simpl. unfold mid; simpl. ring.
  - cbn [words]. rewrite lsum_flat_map. rewrite pow2_S in *.
    set (d := (2 ^ n)%nat) in *. assert (Hd : (0 < d)%nat) by apply pow2_pos.
    destruct (divmod_lt i 2 d Hi), (divmod_lt j 2 d Hj), (divmod_lt k 2 d Hk), (divmod_lt l 2 d Hl).
    transitivity (lsum (fun g => sigma g (i / d)%nat (j / d)%nat * sigma g (k / d)%nat (l / d)%nat *
        (knat d * (mid (i mod d) (l mod d) * mid (j mod d) (k mod d)))) (seq 0 4)).
    { apply lsum_ext. intros g _. rewrite lsum_map. rewrite <- IH by auto.
      rewrite <- lsum_scale_l. apply lsum_ext. intros w Hw. apply words_spec in Hw. destruct Hw as [Hw _].
      unfold pword. cbn [map kronl]. rewrite map_length, Hw. fold d. unfold kron. ring. }
    rewrite lsum_scale_r, sigma_complete by auto. rewrite knat_mul.
    rewrite <- (mid_divmod d i l Hd), <- (mid_divmod d j k Hd). ring.
Qed.

(** every matrix is the sum of its Pauli components *)
Lemma pauli_expansion n (A : mat K) :
  meq (2 ^ n) (msum (fun w => mscale (mtrace (2 ^ n) (mmul (2 ^ n) (pword w) A)) (pword w)) (words 4 n))
      (mscale (knat (2 ^ n)) A).
Proof.
  intros i j Hi Hj. unfold msum, mscale, mtrace, mmul.
  transitivity (lsum (fun k => lsum (fun l => A l k * lsum (fun w => pword w i j * pword w k l) (words 4 n)) (seq 0 (2 ^ n))) (seq 0 (2 ^ n))).
  - transitivity (lsum (fun w => lsum (fun k => lsum (fun l => A l k * (pword w i j * pword w k l)) (seq 0 (2 ^ n))) (seq 0 (2 ^ n))) (words 4 n)).
    + apply lsum_ext. intros w _. rewrite <- lsum_scale_r. apply lsum_ext. intros k _.
      rewrite <- lsum_scale_r. apply lsum_ext. intros l _. ring.
    + rewrite lsum_swap. apply lsum_ext. intros k _. rewrite lsum_swap. apply lsum_ext. intros l _.
      apply lsum_scale_l.
  - rewrite (lsum_single _ _ j).
    + rewrite (lsum_single _ _ i).
      * rewrite words_complete, !mid_eq by auto. ring.
      * apply seq_NoDup.
      * apply in_seq; lia.
      * intros l Hl Hne. apply in_seq in Hl. rewrite words_complete by lia. rewrite (mid_neq i l) by auto. ring.
    + apply seq_NoDup.
    + apply in_seq; lia.
    + intros k Hk Hne. apply in_seq in Hk. apply lsum_zero. intros l Hl. apply in_seq in Hl.
      rewrite words_complete by lia. rewrite (mid_neq j k) by auto. ring.
Qed.

End S.
