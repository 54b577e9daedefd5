(** Bit lists (big endian, as numpy's C-order reshape to [2]*n) and the operator
    acting on some wires only. *)
From Coq Require Import List Arith Lia Bool Permutation Ring Setoid Morphisms.
From Verif Require Import Py StarRing Matrix PauliSpec.
Import ListNotations.
Local Open Scope nat_scope.

(** ** Bit lists *)

Fixpoint bits (n i : nat) : list nat :=
  match n with 0 => [] | S n' => i / 2 ^ n' :: bits n' (i mod 2 ^ n') end.

Fixpoint unbits (l : list nat) : nat :=
  match l with [] => 0 | b :: r => b * 2 ^ length r + unbits r end.

Fixpoint allbits (n : nat) : list (list nat) :=
  match n with 0 => [[]] | S n' => map (cons 0) (allbits n') ++ map (cons 1) (allbits n') end.

Definition bitlist (n : nat) (l : list nat) : Prop := length l = n /\ Forall (fun b => b < 2) l.

Lemma NoDup_map_on {A B} (f : A -> B) l :
  (forall x y, In x l -> In y l -> f x = f y -> x = y) -> NoDup l -> NoDup (map f l).
Proof.
  intros H Hn. induction Hn as [|a l Ha Hl IH]; simpl; constructor.
  - intros Hi. apply in_map_iff in Hi. destruct Hi as (y & E & Hy). apply H in E; simpl; auto. subst; auto.
  - apply IH. intros; apply H; simpl; auto.
Qed.

Lemma pow2_nz n : 2 ^ n <> 0.
Proof. pose proof (pow2_pos n); lia. Qed.

Lemma bits_length n : forall i, length (bits n i) = n.
Proof. induction n; simpl; auto. Qed.

Lemma bits_bitlist n : forall i, i < 2 ^ n -> bitlist n (bits n i).
Proof.
  induction n as [|n IH]; intros i Hi; simpl; [split; simpl; auto|].
  simpl in Hi. destruct (IH (i mod 2 ^ n)) as [H1 H2]; [apply Nat.mod_upper_bound, pow2_nz|].
  split; simpl; [lia|]. constructor; auto. apply Nat.div_lt_upper_bound; [apply pow2_nz|lia].
Qed.

Lemma unbits_bits n : forall i, i < 2 ^ n -> unbits (bits n i) = i.
Proof.
  induction n as [|n IH]; intros i Hi; simpl; [simpl in Hi; lia|].
  rewrite bits_length, IH by (apply Nat.mod_upper_bound, pow2_nz).
  pose proof (Nat.div_mod i (2 ^ n) (pow2_nz n)). lia.
Qed.

Lemma unbits_lt l : Forall (fun b => b < 2) l -> unbits l < 2 ^ length l.
Proof.
  induction 1 as [|b l Hb Hl IH]; simpl; [lia|].
  assert (b = 0 \/ b = 1) as [->| ->] by lia; lia.
Qed.

Lemma unbits_lt' n l : bitlist n l -> unbits l < 2 ^ n.
Proof. intros [<- H]; apply unbits_lt; auto. Qed.

Lemma bits_unbits n l : bitlist n l -> bits n (unbits l) = l.
Proof.
  intros [<- H]. induction H as [|b l Hb Hl IH]; simpl; auto.
  pose proof (unbits_lt l Hl). pose proof (pow2_nz (length l)).
  rewrite Nat.add_comm, Nat.div_add, Nat.mod_add by auto.
  rewrite Nat.div_small, Nat.mod_small by auto. rewrite IH. reflexivity.
Qed.

Lemma allbits_spec n l : In l (allbits n) <-> bitlist n l.
Proof.
  revert l; induction n as [|n IH]; intros l; simpl.
  - split; [intros [<-|[]]; split; simpl; auto|]. intros [H _]. destruct l; [auto|discriminate].
  - rewrite in_app_iff, !in_map_iff. split.
    + intros [(x & <- & Hx)|(x & <- & Hx)]; apply IH in Hx; destruct Hx as [H1 H2]; split; simpl; auto.
    + intros [H1 H2]. destruct l as [|b l]; [discriminate|]. injection H1 as H1.
      inversion H2 as [|? ? Hb Hl]; subst.
      assert (b = 0 \/ b = 1) as [->| ->] by lia; [left|right]; exists l; split; auto; apply IH; split; auto.
Qed.

Lemma map_cons_NoDup {A} (a : A) l : NoDup l -> NoDup (map (cons a) l).
Proof. apply FinFun.Injective_map_NoDup. intros x y E; injection E; auto. Qed.

Lemma allbits_NoDup n : NoDup (allbits n).
Proof.
  induction n as [|n IH]; simpl; [repeat constructor; simpl; tauto|].
  apply NoDup_app_intro; auto using map_cons_NoDup.
  intros x H1 H2. apply in_map_iff in H1. apply in_map_iff in H2.
  destruct H1 as (a & <- & _), H2 as (b & E & _). discriminate.
Qed.

Lemma allbits_perm n : Permutation (map (bits n) (seq 0 (2 ^ n))) (allbits n).
Proof.
  apply NoDup_Permutation; auto using allbits_NoDup.
  - apply NoDup_map_on; [|apply seq_NoDup].
    intros x y Hx Hy E. apply in_seq in Hx. apply in_seq in Hy.
    rewrite <- (unbits_bits n x), <- (unbits_bits n y) by lia. congruence.
  - intros l. rewrite allbits_spec, in_map_iff. split.
    + intros (i & <- & Hi). apply in_seq in Hi. apply bits_bitlist. lia.
    + intros H. exists (unbits l). split; [apply bits_unbits; auto|].
      apply in_seq. pose proof (unbits_lt' n l H). lia.
Qed.

Lemma bits_inj n i j : i < 2 ^ n -> j < 2 ^ n -> bits n i = bits n j -> i = j.
Proof. intros Hi Hj E. rewrite <- (unbits_bits n i), <- (unbits_bits n j) by auto. congruence. Qed.

Lemma unbits_inj n l m : bitlist n l -> bitlist n m -> unbits l = unbits m -> l = m.
Proof. intros Hl Hm E. rewrite <- (bits_unbits n l), <- (bits_unbits n m) by auto. congruence. Qed.

Lemma unbits_app l m : unbits (l ++ m) = unbits l * 2 ^ length m + unbits m.
Proof.
  induction l as [|b l IH]; simpl; auto. rewrite IH, app_length, Nat.pow_add_r. ring.
Qed.

(** ** Selecting and overwriting positions *)

Definition sel (ws : list nat) (b : list nat) : list nat := map (fun w => nth w b 0) ws.

Fixpoint index_of (w : nat) (ws : list nat) : option nat :=
  match ws with
  | [] => None
  | x :: t => if Nat.eqb w x then Some 0 else option_map S (index_of w t)
  end.

Definition upd (b ws x : list nat) : list nat :=
  map (fun p => match index_of p ws with Some i => nth i x 0 | None => nth p b 0 end) (seq 0 (length b)).

Definition agree_off (n : nat) (ws b c : list nat) : bool :=
  forallb (fun p => mem p ws || Nat.eqb (nth p b 0) (nth p c 0)) (seq 0 n).

Definition wires_ok (n : nat) (ws : list nat) : Prop := NoDup ws /\ Forall (fun w => w < n) ws.

Lemma agree_off_spec n ws b c :
  agree_off n ws b c = true <-> forall p, p < n -> ~ In p ws -> nth p b 0 = nth p c 0.
Proof.
  unfold agree_off. rewrite forallb_forall. split.
  - intros H p Hp Hn. specialize (H p). rewrite orb_true_iff, mem_In, Nat.eqb_eq in H.
    destruct H; auto; [apply in_seq; lia|contradiction].
  - intros H p Hp. apply in_seq in Hp. rewrite orb_true_iff, mem_In, Nat.eqb_eq.
    destruct (in_dec Nat.eq_dec p ws); auto. right. apply H; auto; lia.
Qed.

Lemma bool_iff (a b : bool) : (a = true <-> b = true) -> a = b.
Proof. destruct a, b; intros [H1 H2]; auto; symmetry; auto. Qed.

Lemma agree_off_sym n ws b c : agree_off n ws b c = agree_off n ws c b.
Proof. apply bool_iff. rewrite !agree_off_spec. split; intros H p H1 H2; symmetry; auto. Qed.

Lemma agree_off_refl n ws b : agree_off n ws b b = true.
Proof. apply agree_off_spec; auto. Qed.

Lemma agree_off_perm n ws ws' b c : Permutation ws ws' -> agree_off n ws b c = agree_off n ws' b c.
Proof.
  intros P. apply bool_iff. rewrite !agree_off_spec. split; intros H p H1 H2; apply H; auto; intros H3; apply H2.
  - apply (Permutation_in _ P); auto.
  - apply (Permutation_in _ (Permutation_sym P)); auto.
Qed.


Lemma index_of_Some w ws i : index_of w ws = Some i -> nth_error ws i = Some w.
Proof.
  revert i; induction ws as [|x t IH]; simpl; intros i H; [discriminate|].
  destruct (Nat.eqb_spec w x) as [->|N]; [injection H as <-; auto|].
  destruct (index_of w t) as [j|]; [|discriminate]. injection H as <-. simpl; auto.
Qed.

Lemma index_of_None w ws : index_of w ws = None -> ~ In w ws.
Proof.
  induction ws as [|x t IH]; simpl; intros H; [tauto|].
  destruct (Nat.eqb_spec w x) as [->|N]; [discriminate|].
  destruct (index_of w t); [discriminate|]. intros [E|Hi]; [congruence|]. apply IH; auto.
Qed.

Lemma index_of_nth ws i : NoDup ws -> i < length ws -> index_of (nth i ws 0) ws = Some i.
Proof.
  intros H; revert i; induction H as [|x t Hx Ht IH]; simpl; intros i Hi; [lia|].
  destruct i as [|i]; [rewrite Nat.eqb_refl; auto|].
  destruct (Nat.eqb_spec (nth i t 0) x) as [E|N].
  - exfalso; apply Hx. rewrite <- E. apply nth_In; lia.
  - rewrite IH by lia. reflexivity.
Qed.

Lemma nth_map_seq {A} (f : nat -> A) n p d : p < n -> nth p (map f (seq 0 n)) d = f p.
Proof.
  intros H. rewrite nth_indep with (d' := f 0) by (rewrite map_length, seq_length; auto).
  rewrite map_nth, seq_nth; auto.
Qed.

Lemma list_ext (l m : list nat) : length l = length m -> (forall p, p < length l -> nth p l 0 = nth p m 0) -> l = m.
Proof. intros H1 H2. apply (nth_ext l m 0 0); auto. Qed.

Lemma sel_length ws b : length (sel ws b) = length ws.
Proof. apply map_length. Qed.

Lemma nth_bit n b p : bitlist n b -> nth p b 0 < 2.
Proof.
  intros [H1 H2]. destruct (Nat.lt_ge_cases p (length b)).
  - rewrite Forall_forall in H2. apply H2, nth_In; auto.
  - rewrite nth_overflow by auto. lia.
Qed.

Lemma sel_bitlist n ws b : bitlist n b -> bitlist (length ws) (sel ws b).
Proof.
  intros H. split; [apply sel_length|]. apply Forall_forall. intros x Hx.
  apply in_map_iff in Hx. destruct Hx as (w & <- & _). eapply nth_bit; eauto.
Qed.

Lemma upd_length b ws x : length (upd b ws x) = length b.
Proof. unfold upd. rewrite map_length, seq_length; auto. Qed.

Lemma nth_upd b ws x p : p < length b ->
  nth p (upd b ws x) 0 = match index_of p ws with Some i => nth i x 0 | None => nth p b 0 end.
Proof. intros H. unfold upd. rewrite nth_map_seq; auto. Qed.

Lemma upd_bitlist n k b ws x : bitlist n b -> bitlist k x -> bitlist n (upd b ws x).
Proof.
  intros Hb Hx. split; [rewrite upd_length; apply Hb|]. apply Forall_forall. intros y Hy.
  apply in_map_iff in Hy. destruct Hy as (p & <- & _). destruct (index_of p ws); eapply nth_bit; eauto.
Qed.

Lemma nth_sel ws b i : i < length ws -> nth i (sel ws b) 0 = nth (nth i ws 0) b 0.
Proof.
  intros H. unfold sel. rewrite nth_indep with (d' := nth 0 b 0) by (rewrite map_length; auto).
  apply (map_nth (fun w => nth w b 0)).
Qed.

Lemma sel_upd n b ws x : wires_ok n ws -> length b = n -> length x = length ws -> sel ws (upd b ws x) = x.
Proof.
  intros [Hn Hlt] Hb Hx. apply list_ext; [rewrite sel_length; auto|].
  intros p Hp. rewrite sel_length in Hp. rewrite nth_sel by auto.
  assert (Hw : nth p ws 0 < length b).
  { rewrite Forall_forall in Hlt. rewrite Hb. apply Hlt, nth_In; auto. }
  rewrite nth_upd by auto. rewrite index_of_nth; auto.
Qed.

Lemma upd_agree n b ws x : length b = n -> agree_off n ws b (upd b ws x) = true.
Proof.
  intros Hb. apply agree_off_spec. intros p Hp Hn. rewrite nth_upd by lia.
  destruct (index_of p ws) eqn:E; auto. apply index_of_Some, nth_error_In in E. contradiction.
Qed.

Lemma upd_sel n b ws m : length b = n -> length m = n -> agree_off n ws b m = true -> upd b ws (sel ws m) = m.
Proof.
  intros Hb Hm Ha. apply list_ext; [rewrite upd_length; lia|]. intros p Hp. rewrite upd_length in Hp.
  rewrite nth_upd by auto. destruct (index_of p ws) as [i|] eqn:E.
  - apply index_of_Some in E. pose proof (nth_error_nth ws i 0 E) as E'.
    assert (i < length ws) by (apply nth_error_Some; congruence).
    rewrite nth_sel by auto. congruence.
  - apply index_of_None in E. apply (proj1 (agree_off_spec _ _ _ _) Ha); auto; lia.
Qed.

(** the bit lists agreeing with [b] off the wires are its overwritings *)
Lemma agree_perm n ws b : wires_ok n ws -> bitlist n b ->
  Permutation (filter (agree_off n ws b) (allbits n)) (map (upd b ws) (allbits (length ws))).
Proof.
  intros Hw Hb. apply NoDup_Permutation.
  - apply NoDup_filter, allbits_NoDup.
  - apply NoDup_map_on; [|apply allbits_NoDup].
    intros x y Hx Hy E. apply allbits_spec in Hx. apply allbits_spec in Hy.
    rewrite <- (sel_upd n b ws x), <- (sel_upd n b ws y); try apply Hb; try apply Hx; try apply Hy; auto.
    congruence.
  - intros m. rewrite filter_In, allbits_spec, in_map_iff. split.
    + intros [Hm Ha]. exists (sel ws m). split; [apply (upd_sel n); auto; [apply Hb|apply Hm]|].
      apply allbits_spec. eapply sel_bitlist; eauto.
    + intros (x & <- & Hx). apply allbits_spec in Hx. split; [eapply upd_bitlist; eauto|].
      apply upd_agree. apply Hb.
Qed.

(** ** Operators on some wires *)

Section Emb.
Context {K : Type} {SR : StarRing K}.
Add Ring Kr : (@k_ring K SR).
Local Open Scope K_scope.

Lemma lsum_bits n (f : nat -> K) :
  lsum f (seq 0 (2 ^ n)) = lsum (fun b => f (unbits b)) (allbits n).
Proof.
  rewrite <- (lsum_perm _ _ _ (allbits_perm n)), lsum_map. apply lsum_ext.
  intros i Hi. apply in_seq in Hi. rewrite unbits_bits by lia. auto.
Qed.

(** [op] acting on the wires [ws] of an n-qubit system, identity elsewhere *)
Definition emb (n : nat) (ws : list nat) (op : mat K) : mat K := fun r c =>
  if agree_off n ws (bits n r) (bits n c)
  then op (unbits (sel ws (bits n r))) (unbits (sel ws (bits n c))) else 0.

Lemma sel_lt n ws r : (r < 2 ^ n)%nat -> (unbits (sel ws (bits n r)) < 2 ^ length ws)%nat.
Proof. intros H. apply unbits_lt'. eapply sel_bitlist, bits_bitlist; eauto. Qed.

Lemma emb_proper n ws A B : meq (2 ^ length ws) A B -> meq (2 ^ n) (emb n ws A) (emb n ws B).
Proof.
  intros H i j Hi Hj. unfold emb. destruct (agree_off _ _ _ _); auto. apply H; apply sel_lt; auto.
Qed.

Lemma agree_trans n ws a b c :
  agree_off n ws a b = true -> agree_off n ws b c = agree_off n ws a c.
Proof.
  intros H. rewrite agree_off_spec in H. apply bool_iff. rewrite !agree_off_spec.
  split; intros H' p H1 H2; rewrite <- H' by auto; [|symmetry]; auto.
Qed.

Lemma emb_mul n ws A B : wires_ok n ws ->
  meq (2 ^ n) (mmul (2 ^ n) (emb n ws A) (emb n ws B)) (emb n ws (mmul (2 ^ length ws) A B)).
Proof.
  intros Hw r c Hr Hc. unfold mmul. rewrite lsum_bits.
  assert (Hbr := bits_bitlist n r Hr).
  transitivity (lsum (fun b => A (unbits (sel ws (bits n r))) (unbits (sel ws b)) *
      (if agree_off n ws (bits n r) (bits n c) then B (unbits (sel ws b)) (unbits (sel ws (bits n c))) else 0))
      (filter (agree_off n ws (bits n r)) (allbits n))).
  { rewrite lsum_filter. apply lsum_ext. intros b Hb. apply allbits_spec in Hb.
    unfold emb. rewrite bits_unbits by auto.
    destruct (agree_off n ws (bits n r) b) eqn:E; [|ring].
    rewrite (agree_trans _ _ _ _ _ E). reflexivity. }
  rewrite (lsum_perm _ _ _ (agree_perm n ws _ Hw Hbr)), lsum_map.
  unfold emb. destruct (agree_off n ws (bits n r) (bits n c)).
  - rewrite lsum_bits. apply lsum_ext. intros x Hx. apply allbits_spec in Hx.
    rewrite (sel_upd n); auto; [apply Hbr|apply Hx].
  - apply lsum_zero. intros; ring.
Qed.

Lemma emb_id n ws : wires_ok n ws -> meq (2 ^ n) (emb n ws mid) mid.
Proof.
  intros Hw r c Hr Hc. unfold emb, mid.
  assert (Hbr := bits_bitlist n r Hr). assert (Hbc := bits_bitlist n c Hc).
  destruct (Nat.eqb_spec r c) as [->|N].
  - rewrite agree_off_refl, Nat.eqb_refl. auto.
  - destruct (agree_off n ws (bits n r) (bits n c)) eqn:E; auto.
    destruct (Nat.eqb_spec (unbits (sel ws (bits n r))) (unbits (sel ws (bits n c)))) as [E2|E2]; auto.
    destruct N. apply (bits_inj n); auto.
    apply (unbits_inj (length ws)) in E2; try (eapply sel_bitlist; eauto).
    rewrite <- (upd_sel n (bits n r) ws (bits n c)), <- E2; try apply Hbr; try apply Hbc; auto.
    symmetry. apply (upd_sel n); try apply Hbr. apply agree_off_refl.
Qed.

Lemma emb_adj n ws A : meq (2 ^ n) (madj (emb n ws A)) (emb n ws (madj A)).
Proof.
  intros r c _ _. unfold madj, emb. rewrite agree_off_sym. destruct (agree_off _ _ _ _); auto. apply kconj_0.
Qed.

Lemma emb_add n ws A B : meq (2 ^ n) (emb n ws (madd A B)) (madd (emb n ws A) (emb n ws B)).
Proof. intros r c _ _. unfold madd, emb. destruct (agree_off _ _ _ _); auto. ring. Qed.

Lemma emb_scale n ws x A : meq (2 ^ n) (emb n ws (mscale x A)) (mscale x (emb n ws A)).
Proof. intros r c _ _. unfold mscale, emb. destruct (agree_off _ _ _ _); auto. ring. Qed.

(** ** Two operators on disjoint wires *)

Lemma wires_ok_app n ws vs : wires_ok n (ws ++ vs) ->
  wires_ok n ws /\ wires_ok n vs /\ (forall p, In p ws -> ~ In p vs).
Proof.
  intros [H1 H2]. apply Forall_app in H2. destruct H2.
  assert (Hd : NoDup ws /\ NoDup vs /\ (forall p, In p ws -> ~ In p vs)).
  { clear - H1. induction ws as [|w ws IH]; simpl in *.
    - repeat split; auto. constructor.
    - inversion H1 as [|? ? Hw Hn]; subst. destruct (IH Hn) as (A & B & C).
      rewrite in_app_iff in Hw. repeat split; auto.
      + constructor; tauto.
      + intros p [<-|Hp]; auto. }
  repeat split; tauto.
Qed.

Lemma sel_app ws vs b : sel (ws ++ vs) b = sel ws b ++ sel vs b.
Proof. apply map_app. Qed.

Lemma sel_ext ws b c : (forall w, In w ws -> nth w b 0%nat = nth w c 0%nat) -> sel ws b = sel ws c.
Proof. intros H. apply map_ext_in. auto. Qed.

Lemma kron_sel n ws vs A B r c : (r < 2 ^ n)%nat -> (c < 2 ^ n)%nat ->
  kron (2 ^ length vs) A B (unbits (sel (ws ++ vs) (bits n r))) (unbits (sel (ws ++ vs) (bits n c))) =
  A (unbits (sel ws (bits n r))) (unbits (sel ws (bits n c))) *
  B (unbits (sel vs (bits n r))) (unbits (sel vs (bits n c))).
Proof.
  intros Hr Hc. unfold kron. rewrite !sel_app, !unbits_app, !sel_length.
  pose proof (sel_lt n vs r Hr). pose proof (sel_lt n vs c Hc). pose proof (pow2_nz (length vs)).
  rewrite !(Nat.add_comm (_ * _)), !Nat.div_add, !Nat.mod_add by auto.
  rewrite !Nat.div_small, !Nat.mod_small by auto. reflexivity.
Qed.

Lemma emb_mul_disjoint n ws vs A B : wires_ok n (ws ++ vs) ->
  meq (2 ^ n) (mmul (2 ^ n) (emb n ws A) (emb n vs B)) (emb n (ws ++ vs) (kron (2 ^ length vs) A B)).
Proof.
  intros Hw r c Hr Hc. destruct (wires_ok_app _ _ _ Hw) as (Hws & Hvs & Hdis).
  assert (Hbr := bits_bitlist n r Hr). assert (Hbc := bits_bitlist n c Hc).
  unfold mmul. rewrite lsum_bits.
  set (m := upd (bits n r) ws (sel ws (bits n c))).
  assert (Hm : bitlist n m) by (eapply upd_bitlist; eauto; eapply sel_bitlist; eauto).
  assert (Hmr : agree_off n ws (bits n r) m = true) by (apply upd_agree, Hbr).
  assert (Hmw : sel ws m = sel ws (bits n c)).
  { apply (sel_upd n); auto; [apply Hbr|apply sel_length]. }
  assert (Hmv : sel vs m = sel vs (bits n r)).
  { apply sel_ext. intros w Hv. symmetry. apply (proj1 (agree_off_spec _ _ _ _) Hmr).
    - destruct Hvs as [_ Hvs]. rewrite Forall_forall in Hvs; auto.
    - intros H. apply (Hdis w H Hv). }
  rewrite (lsum_single _ _ m).
  - unfold emb. rewrite bits_unbits by auto. rewrite Hmr, Hmw, Hmv, kron_sel by auto.
    replace (agree_off n vs m (bits n c)) with (agree_off n (ws ++ vs) (bits n r) (bits n c)).
    + destruct (agree_off n (ws ++ vs) (bits n r) (bits n c)); [reflexivity|ring].
    + apply bool_iff. rewrite !agree_off_spec in *. setoid_rewrite in_app_iff. split.
      * intros H p Hp Hn. destruct (in_dec Nat.eq_dec p ws) as [Hi|Hi].
        -- apply (ext_in_map Hmw); auto.
        -- rewrite <- Hmr by auto. apply H; tauto.
      * intros H p Hp Hn. rewrite Hmr by tauto. apply H; tauto.
  - apply allbits_NoDup.
  - apply allbits_spec; auto.
  - intros b Hb Hne. apply allbits_spec in Hb. unfold emb. rewrite bits_unbits by auto.
    destruct (agree_off n ws (bits n r) b) eqn:E1; [|ring].
    destruct (agree_off n vs b (bits n c)) eqn:E2; [|ring].
    destruct Hne. rewrite <- (upd_sel n (bits n r) ws b); try apply Hbr; try apply Hb; auto.
    unfold m. f_equal. apply sel_ext. intros w Hi. apply (proj1 (agree_off_spec _ _ _ _) E2); auto.
    destruct Hws as [_ Hws]. rewrite Forall_forall in Hws; auto.
Qed.

Lemma emb_commute n ws vs A B : wires_ok n (ws ++ vs) ->
  meq (2 ^ n) (mmul (2 ^ n) (emb n ws A) (emb n vs B)) (mmul (2 ^ n) (emb n vs B) (emb n ws A)).
Proof.
  intros Hw. rewrite emb_mul_disjoint by auto. rewrite emb_mul_disjoint.
  - intros r c Hr Hc. unfold emb. rewrite (agree_off_perm n (ws ++ vs) (vs ++ ws)) by apply Permutation_app_comm.
    destruct (agree_off _ _ _ _); auto. rewrite !kron_sel by auto. ring.
  - destruct Hw as [H1 H2]. split.
    + apply (Permutation_NoDup (Permutation_app_comm ws vs)); auto.
    + apply Forall_app in H2. apply Forall_app; tauto.
Qed.

(** ** Permuting the wires together with the tensor factors *)

Lemma sel_sel p ws b : Forall (fun i => i < length ws)%nat p -> sel p (sel ws b) = sel (map (fun i => nth i ws 0%nat) p) b.
Proof.
  intros H. unfold sel at 1 3. rewrite map_map. apply map_ext_in. intros i Hi.
  rewrite Forall_forall in H. apply nth_sel; auto.
Qed.

Lemma map_nth_self (ws : list nat) : map (fun i => nth i ws 0%nat) (seq 0 (length ws)) = ws.
Proof.
  apply list_ext; [rewrite map_length, seq_length; auto|]. intros p Hp.
  rewrite map_length, seq_length in Hp. apply (nth_map_seq (fun i => nth i ws 0%nat)); auto.
Qed.

Lemma emb_permute n ws p A A' : Permutation p (seq 0 (length ws)) ->
  (forall b c, bitlist (length ws) b -> bitlist (length ws) c ->
     A' (unbits (sel p b)) (unbits (sel p c)) = A (unbits b) (unbits c)) ->
  meq (2 ^ n) (emb n (map (fun i => nth i ws 0%nat) p) A') (emb n ws A).
Proof.
  intros Hp HA r c Hr Hc. unfold emb.
  assert (P : Permutation (map (fun i => nth i ws 0%nat) p) ws).
  { transitivity (map (fun i => nth i ws 0%nat) (seq 0 (length ws))); [apply Permutation_map; auto|]. rewrite map_nth_self; reflexivity. }
  rewrite (agree_off_perm _ _ _ _ _ P). destruct (agree_off _ _ _ _); auto.
  assert (Hlt : Forall (fun i => i < length ws)%nat p).
  { apply Forall_forall. intros i Hi. apply (Permutation_in _ Hp), in_seq in Hi. lia. }
  rewrite <- !sel_sel by auto. apply HA; eapply sel_bitlist, bits_bitlist; eauto.
Qed.

(** ** Trace *)

Definition rest (n : nat) (ws : list nat) : list nat := filter (fun p => negb (mem p ws)) (seq 0 n).

Lemma rest_In n ws p : In p (rest n ws) <-> (p < n)%nat /\ ~ In p ws.
Proof.
  unfold rest. rewrite filter_In, in_seq, negb_true_iff, <- not_true_iff_false, mem_In. intuition lia.
Qed.

Lemma rest_perm n ws : wires_ok n ws -> Permutation (ws ++ rest n ws) (seq 0 n).
Proof.
  intros [Hn Hlt]. apply NoDup_Permutation.
  - apply NoDup_app_intro; auto; [apply NoDup_filter, seq_NoDup|].
    intros p H1 H2. apply rest_In in H2. tauto.
  - apply seq_NoDup.
  - intros p. rewrite in_app_iff, rest_In, in_seq. rewrite Forall_forall in Hlt. split.
    + intros [H|H]; [specialize (Hlt p H); lia|lia].
    + intros H. destruct (in_dec Nat.eq_dec p ws); auto. right; split; auto; lia.
Qed.

Lemma allbits_sel n ps : Permutation ps (seq 0 n) -> Permutation (map (sel ps) (allbits n)) (allbits n).
Proof.
  intros P. assert (Hl : length ps = n) by (rewrite (Permutation_length P), seq_length; auto).
  assert (Hn : NoDup ps) by (apply (Permutation_NoDup (Permutation_sym P)), seq_NoDup).
  assert (Hin : forall p, In p ps <-> (p < n)%nat).
  { intros p. split; intros H.
    - apply (Permutation_in _ P), in_seq in H. lia.
    - apply (Permutation_in _ (Permutation_sym P)), in_seq. lia. }
  apply NoDup_Permutation; [|apply allbits_NoDup|].
  - apply NoDup_map_on; [|apply allbits_NoDup].
    intros x y Hx Hy E. apply allbits_spec in Hx. apply allbits_spec in Hy.
    destruct Hx as [Hx _], Hy as [Hy _].
    apply list_ext; [lia|]. intros p Hp.
    assert (Hip : In p ps) by (apply Hin; lia).
    apply (ext_in_map E); auto.
  - intros x. rewrite in_map_iff, allbits_spec. split.
    + intros (b & <- & Hb). apply allbits_spec in Hb. rewrite <- Hl. eapply sel_bitlist; eauto.
    + intros Hx. set (b := upd (repeat 0%nat n) ps x).
      assert (Hb : length (repeat 0%nat n) = n) by apply repeat_length.
      exists b. split.
      * apply (sel_upd n); auto; [split; auto; apply Forall_forall; intros; apply Hin; auto|].
        destruct Hx; lia.
      * apply allbits_spec. eapply upd_bitlist; [|exact Hx]. split; auto.
        apply Forall_forall. intros y Hy. apply repeat_spec in Hy. lia.
Qed.

Lemma allbits_app (f : list nat -> list nat -> K) n m :
  lsum (fun b => f (firstn n b) (skipn n b)) (allbits (n + m)) =
  lsum (fun x => lsum (fun y => f x y) (allbits m)) (allbits n).
Proof.
  revert f. induction n as [|n IH]; intros f; simpl.
  - unfold lsum at 2. simpl. ring_simplify. auto.
  - rewrite !lsum_app, !lsum_map. simpl.
    rewrite (IH (fun x y => f (0%nat :: x) y)), (IH (fun x y => f (1%nat :: x) y)). auto.
Qed.

Lemma emb_trace n ws A : wires_ok n ws ->
  mtrace (2 ^ n) (emb n ws A) = lsum (fun _ => mtrace (2 ^ length ws) A) (allbits (n - length ws)).
Proof.
  intros Hw. unfold mtrace. rewrite lsum_bits.
  assert (P := rest_perm n ws Hw).
  assert (Hl : (length ws + length (rest n ws) = n)%nat).
  { rewrite <- app_length, (Permutation_length P), seq_length; auto. }
  transitivity (lsum (fun b => A (unbits (firstn (length ws) (sel (ws ++ rest n ws) b)))
                               (unbits (firstn (length ws) (sel (ws ++ rest n ws) b)))) (allbits n)).
  { apply lsum_ext. intros b Hb. apply allbits_spec in Hb. unfold emb.
    rewrite bits_unbits, agree_off_refl by auto. rewrite sel_app.
    rewrite firstn_app, sel_length, Nat.sub_diag, firstn_O, app_nil_r.
    rewrite firstn_all2 by (rewrite sel_length; auto). auto. }
  rewrite <- (lsum_map (sel (ws ++ rest n ws)) (fun x => A (unbits (firstn (length ws) x)) (unbits (firstn (length ws) x)))).
  rewrite (lsum_perm _ _ _ (allbits_sel n _ P)).
  replace n with (length ws + (n - length ws))%nat at 1 by lia.
  rewrite (allbits_app (fun x _ => A (unbits x) (unbits x))).
  rewrite lsum_swap. apply lsum_ext. intros _ _. rewrite lsum_bits. auto.
Qed.

End Emb.
