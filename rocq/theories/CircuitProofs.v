(** get_full_operator computes the embedding [emb]; consequences. *)
From Coq Require Import Arith Lia Bool String Permutation Reals Lra Ring Setoid Morphisms.
From Coquelicot Require Import Coquelicot.
From Verif Require Import Py StarRing Matrix Cplx PauliSpec Bits PauliBasis UtilsModel UtilsProofs CircuitModel.
From Coq Require Import List.
Import ListNotations.
Local Open Scope nat_scope.

(** ** Lists *)

Lemma fold_max_le r : forall x, x <= fold_left Nat.max r x /\ Forall (fun y => y <= fold_left Nat.max r x) r.
Proof.
  induction r as [|y r IH]; intros x; simpl; [auto|].
  destruct (IH (Nat.max x y)) as [H1 H2]. split; [lia|]. constructor; [lia|auto].
Qed.
Lemma fold_max_In r : forall x, In (fold_left Nat.max r x) (x :: r).
Proof.
  induction r as [|y r IH]; intros x; simpl; [auto|].
  destruct (IH (Nat.max x y)) as [H|H]; [|auto].
  destruct (Nat.max_spec x y) as [[_ E]|[_ E]]; rewrite E in *; auto.
Qed.

Lemma py_max_lt ws n : ws <> [] -> Forall (fun w => w < n) ws -> exists m, py_max ws = Ok m /\ (m <? n) = true.
Proof.
  intros Hne H. destruct ws as [|x r]; [congruence|]. exists (fold_left Nat.max r x). split; auto.
  apply Nat.ltb_lt. rewrite Forall_forall in H. apply H, fold_max_In.
Qed.
Lemma py_max_ge ws n : ~ Forall (fun w => w < n) ws -> exists m, py_max ws = Ok m /\ (m <? n) = false.
Proof.
  intros H. destruct ws as [|x r]; [exfalso; apply H; constructor|]. exists (fold_left Nat.max r x). split; auto.
  apply Nat.ltb_ge. destruct (Nat.le_gt_cases n (fold_left Nat.max r x)) as [|Hl]; auto.
  exfalso. apply H. destruct (fold_max_le r x) as [H1 H2]. constructor; [lia|].
  eapply Forall_impl; [|exact H2]. simpl; intros; lia.
Qed.

Lemma list_get_ok (l : list nat) i : i < List.length l -> list_get l i = Ok (nth i l 0).
Proof. intros H. unfold list_get. rewrite (nth_error_nth' _ 0); auto. Qed.

Lemma list_set_ok (x : nat) : forall l i, i < List.length l -> exists t, list_set l i x = Ok t /\
  List.length t = List.length l /\ forall p, nth p t 0 = if Nat.eqb p i then x else nth p l 0.
Proof.
  induction l as [|a l IH]; intros i Hi; simpl in Hi; [lia|]. destruct i as [|i]; simpl.
  - eexists; split; [reflexivity|]. split; [reflexivity|]. intros [|p]; reflexivity.
  - destruct (IH i) as (t & E & Hl & Hn); [lia|]. rewrite E. simpl. eexists; split; [reflexivity|].
    split; [simpl; auto|]. intros [|p]; simpl; auto.
Qed.

(** the last position of a wire, counted from s *)
Fixpoint lastidx (p : nat) (ws : list nat) (s : nat) : option nat :=
  match ws with
  | [] => None
  | w :: r => match lastidx p r (S s) with Some i => Some i | None => if Nat.eqb p w then Some s else None end
  end.

Lemma lastidx_Some p ws : forall s i, lastidx p ws s = Some i -> s <= i < s + List.length ws /\ nth (i - s) ws 0 = p.
Proof.
  induction ws as [|w r IH]; intros s i H; simpl in H; [discriminate|].
  destruct (lastidx p r (S s)) as [j|] eqn:E.
  - injection H as <-. apply IH in E. destruct E as [E1 E2]. split; [simpl; lia|].
    replace (j - s) with (S (j - S s)) by lia. auto.
  - destruct (Nat.eqb_spec p w); [|discriminate]. injection H as <-. rewrite Nat.sub_diag. simpl. split; [lia|auto].
Qed.
Lemma lastidx_None p ws : forall s, lastidx p ws s = None -> ~ In p ws.
Proof.
  induction ws as [|w r IH]; intros s H; simpl in *; [tauto|].
  destruct (lastidx p r (S s)) eqn:E; [discriminate|]. destruct (Nat.eqb_spec p w); [discriminate|].
  apply IH in E. intros [->|]; auto.
Qed.
Lemma lastidx_index ws : NoDup ws -> forall p s, lastidx p ws s = option_map (fun i => s + i) (index_of p ws).
Proof.
  induction 1 as [|w r Hw Hr IH]; intros p s; simpl; auto. rewrite IH.
  destruct (Nat.eqb_spec p w) as [->|Hne].
  - simpl. destruct (index_of w r) eqn:E; simpl; [|f_equal; lia].
    apply index_of_Some, nth_error_In in E. contradiction.
  - destruct (Nat.eqb_spec w p); [congruence|]. destruct (index_of p r); simpl; auto. f_equal. lia.
Qed.

Lemma assign_loop_ok off src ws : forall i tgt,
  i + off + List.length ws <= List.length src -> Forall (fun w => w < List.length tgt) ws ->
  exists t, assign_loop i ws off src tgt = Ok t /\ List.length t = List.length tgt /\
    forall p, nth p t 0 = match lastidx p ws i with Some j => nth (j + off) src 0 | None => nth p tgt 0 end.
Proof.
  induction ws as [|w r IH]; intros i tgt Hs Hw; simpl.
  - eexists; split; [reflexivity|]. auto.
  - inversion Hw; subst. rewrite list_get_ok by (simpl in Hs; lia). simpl.
    destruct (list_set_ok (nth (i + off) src 0) tgt w) as (t & E & Hl & Hn); auto. rewrite E. simpl.
    destruct (IH (S i) t) as (u & E' & Hl' & Hn'); [simpl in Hs; lia|rewrite Hl; auto|].
    exists u. split; [auto|]. split; [lia|]. intros p. rewrite Hn'.
    destruct (lastidx p r (S i)); auto. rewrite Hn. destruct (Nat.eqb p w); auto.
Qed.

Lemma dedup_In x l : In x (dedup l) <-> In x l.
Proof.
  induction l as [|y l IH]; simpl; [tauto|]. rewrite filter_In, IH, negb_true_iff, Nat.eqb_neq.
  destruct (Nat.eq_dec y x); tauto.
Qed.
Lemma dedup_NoDup l : NoDup (dedup l).
Proof.
  induction l as [|y l IH]; simpl; constructor; [|apply filter_NoDup; auto].
  rewrite filter_In, negb_true_iff, Nat.eqb_neq. tauto.
Qed.
Lemma filter_true {A} (f : A -> bool) l : (forall x, In x l -> f x = true) -> filter f l = l.
Proof.
  induction l as [|x l IH]; simpl; intros H; auto. rewrite H by auto. f_equal. apply IH; auto.
Qed.
Lemma filter_false {A} (f : A -> bool) l : (forall x, In x l -> f x = false) -> filter f l = [].
Proof.
  induction l as [|x l IH]; simpl; intros H; auto. rewrite H by auto. apply IH; auto.
Qed.
Lemma filter_filter {A} (f g : A -> bool) l : filter f (filter g l) = filter (fun x => g x && f x) l.
Proof. induction l as [|x l IH]; simpl; auto. destruct (g x); simpl; rewrite IH; auto. Qed.
Lemma dedup_id l : NoDup l -> dedup l = l.
Proof.
  induction 1 as [|x l Hx Hl IH]; simpl; auto. rewrite IH. f_equal. apply filter_true.
  intros y Hy. apply negb_true_iff, Nat.eqb_neq. congruence.
Qed.
Lemma dedup_app la lb : NoDup la -> dedup (la ++ lb) = la ++ filter (fun y => negb (mem y la)) (dedup lb).
Proof.
  induction 1 as [|x l Hx Hl IH]; cbn [app dedup].
  - rewrite filter_true; auto.
  - rewrite IH, filter_app. rewrite (filter_true _ l).
    2:{ intros y Hy. apply negb_true_iff, Nat.eqb_neq. congruence. }
    cbn [app]. f_equal. f_equal.
    rewrite filter_filter. apply filter_ext. intros y. unfold mem. simpl existsb. rewrite (Nat.eqb_sym y x).
    destruct (Nat.eqb x y), (existsb (Nat.eqb y) l); auto.
Qed.

Lemma label_val_app ls vs ls' vs' x : List.length ls = List.length vs ->
  label_val (ls ++ ls') (vs ++ vs') x = if mem x ls then label_val ls vs x else label_val ls' vs' x.
Proof.
  revert vs; induction ls as [|l ls IH]; intros [|v vs] H; simpl in H; try discriminate; cbn [app label_val]; auto.
  unfold mem. cbn [existsb]. rewrite (Nat.eqb_sym x l). destruct (Nat.eqb l x); cbn [orb]; auto.
Qed.
Lemma label_val_nth ls : NoDup ls -> forall vs p, List.length ls = List.length vs -> p < List.length ls ->
  label_val ls vs (nth p ls 0) = nth p vs 0.
Proof.
  induction 1 as [|l ls Hl Hn IH]; intros vs p E Hp; simpl in Hp; [lia|].
  destruct vs as [|v vs]; [discriminate|]. destruct p as [|p]; cbn [nth label_val].
  - rewrite Nat.eqb_refl. auto.
  - destruct (Nat.eqb_spec l (nth p ls 0)) as [->|]; [|apply IH; simpl in E; lia].
    exfalso. apply Hl, nth_In. lia.
Qed.

(** ** The index lists of get_full_operator *)

Section Idx.
Variables (n : nat) (ws : list nat).
Hypothesis Hw : Forall (fun w => w < n) ws.
Let k := List.length ws.

Lemma src_ok : 0 + k + k <= List.length (seq 0 (2 * k)).
Proof. rewrite seq_length. lia. Qed.

Lemma idx_lists : exists fin out,
  assign_loop 0 ws k (seq 0 (2 * k)) (seq (2 * k) (2 * n)) = Ok fin /\
  assign_loop 0 ws 0 (seq 0 (2 * k)) fin = Ok out /\
  List.length fin = 2 * n /\ List.length out = 2 * n /\
  (forall p, p < 2 * n -> nth p fin 0 = match lastidx p ws 0 with Some j => k + j | None => 2 * k + p end) /\
  (forall p, p < 2 * n -> nth p out 0 = match lastidx p ws 0 with Some j => j | None => 2 * k + p end).
Proof.
  destruct (assign_loop_ok k (seq 0 (2 * k)) ws 0 (seq (2 * k) (2 * n))) as (fin & E1 & L1 & N1).
  { rewrite seq_length. fold k. lia. }
  { eapply Forall_impl; [|exact Hw]. intros w H. rewrite seq_length. simpl in H. lia. }
  rewrite seq_length in L1.
  destruct (assign_loop_ok 0 (seq 0 (2 * k)) ws 0 fin) as (out & E2 & L2 & N2).
  { rewrite seq_length. fold k. lia. }
  { eapply Forall_impl; [|exact Hw]. intros w H. rewrite L1. simpl in H. lia. }
  exists fin, out. split; [auto|]. split; [auto|]. split; [auto|]. split; [lia|]. split.
  - intros p Hp. rewrite N1. destruct (lastidx p ws 0) as [j|] eqn:E.
    + apply lastidx_Some in E. fold k in E. rewrite seq_nth by lia. lia.
    + rewrite seq_nth by lia. auto.
  - intros p Hp. rewrite N2. destruct (lastidx p ws 0) as [j|] eqn:E.
    + apply lastidx_Some in E. fold k in E. rewrite seq_nth by lia. lia.
    + rewrite N1, E. rewrite seq_nth by lia. auto.
Qed.

Lemma out_NoDup out : List.length out = 2 * n ->
  (forall p, p < 2 * n -> nth p out 0 = match lastidx p ws 0 with Some j => j | None => 2 * k + p end) -> NoDup out.
Proof.
  intros L N. apply (NoDup_nth out 0). intros p q Hp Hq. rewrite L in Hp, Hq. rewrite !N by auto.
  destruct (lastidx p ws 0) as [i|] eqn:Ep, (lastidx q ws 0) as [j|] eqn:Eq; intros E; subst;
    try (apply lastidx_Some in Ep); try (apply lastidx_Some in Eq); unfold k in *; try lia.
Qed.

End Idx.

Section S.
Context {K : Type} {SR : StarRing K}.
Add Ring Kr : (@k_ring K SR).
Local Open Scope K_scope.

Lemma reshape_eye n : exists T, np_reshape2 (np_eye (K:=K) (2 ^ n)) (2 * n) = Ok T /\
  forall a b, bitlist n a -> bitlist n b -> T (a ++ b) = mid (unbits a) (unbits b).
Proof.
  unfold np_reshape2. cbn [a_rows a_cols np_eye].
  replace (2 ^ n * 2 ^ n =? 2 ^ (2 * n))%nat with true.
  2:{ symmetry. apply Nat.eqb_eq. rewrite <- Nat.pow_add_r. f_equal. lia. }
  eexists; split; [reflexivity|]. intros a b Ha Hb. cbn [a_ent np_eye a_cols]. rewrite unbits_app. destruct Hb as [<- Hb].
  pose proof (unbits_lt b Hb) as Hlt.
  rewrite Nat.div_add_l by apply pow2_nz. rewrite Nat.div_small, Nat.add_0_r by auto.
  rewrite Nat.add_comm, Nat.mod_add by apply pow2_nz. rewrite Nat.mod_small by auto. reflexivity.
Qed.

Lemma reshape_op (op : arr K) k : a_rows op = (2 ^ k)%nat -> a_cols op = (2 ^ k)%nat ->
  exists T, np_reshape2 op (2 * k) = Ok T /\
  forall a b, bitlist k a -> bitlist k b -> T (a ++ b) = a_ent op (unbits a) (unbits b).
Proof.
  intros Hr Hc. unfold np_reshape2. rewrite Hr, Hc.
  replace (2 ^ k * 2 ^ k =? 2 ^ (2 * k))%nat with true.
  2:{ symmetry. apply Nat.eqb_eq. rewrite <- Nat.pow_add_r. f_equal. lia. }
  eexists; split; [reflexivity|]. intros a b Ha Hb. cbn beta. rewrite unbits_app. destruct Hb as [<- Hb].
  pose proof (unbits_lt b Hb) as Hlt.
  rewrite Nat.div_add_l by apply pow2_nz. rewrite Nat.div_small, Nat.add_0_r by auto.
  rewrite Nat.add_comm, Nat.mod_add by apply pow2_nz. rewrite Nat.mod_small by auto. reflexivity.
Qed.

Lemma einsum_ok (A B : tensor (K:=K)) la lb out : NoDup out -> incl out (la ++ lb) ->
  np_einsum A la B lb out = let summed := filter (fun x => negb (mem x out)) (dedup (la ++ lb)) in
    Ok (fun o => lsum (fun s =>
          A (map (label_val (out ++ summed) (o ++ s)) la) * B (map (label_val (out ++ summed) (o ++ s)) lb))
        (allbits (List.length summed))).
Proof.
  intros Hn Hi. unfold np_einsum. rewrite dedup_id by auto. rewrite Nat.eqb_refl, andb_true_r.
  replace (forallb (fun x => mem x (la ++ lb)) out) with true; auto.
  symmetry. apply forallb_forall. intros x Hx. apply mem_In, Hi, Hx.
Qed.

Lemma incl_out n ws fin out : List.length fin = (2 * n)%nat -> List.length out = (2 * n)%nat ->
  (forall p, (p < 2 * n)%nat -> nth p fin 0%nat = match lastidx p ws 0 with Some j => List.length ws + j | None => 2 * List.length ws + p end)%nat ->
  (forall p, (p < 2 * n)%nat -> nth p out 0%nat = match lastidx p ws 0 with Some j => j | None => 2 * List.length ws + p end)%nat ->
  incl out (seq 0 (2 * List.length ws) ++ fin).
Proof.
  intros L1 L2 N1 N2 x Hx. apply In_nth with (d := 0%nat) in Hx. destruct Hx as (p & Hp & <-).
  rewrite L2 in Hp. rewrite N2 by auto. apply in_or_app. destruct (lastidx p ws 0) as [j|] eqn:E.
  - left. apply lastidx_Some in E. apply in_seq. lia.
  - right. specialize (N1 p Hp). rewrite E in N1. rewrite <- N1. apply nth_In. lia.
Qed.

(** it never raises on a square operator of the right size with wires in range,
    repeated wires included *)
Lemma full_total n ws (op : arr K) : ws <> [] -> Forall (fun w => w < n)%nat ws ->
  a_rows op = (2 ^ List.length ws)%nat -> a_cols op = (2 ^ List.length ws)%nat ->
  exists F, get_full_operator op ws n = Ok F /\ a_rows F = (2 ^ n)%nat /\ a_cols F = (2 ^ n)%nat.
Proof.
  intros Hne Hw Hr Hc. unfold get_full_operator.
  destruct (py_max_lt ws n Hne Hw) as (m & -> & Hm). cbn [bind]. rewrite Hm. cbn [py_assert bind].
  rewrite Hr, int_log2_pow. cbn [bind]. rewrite Nat.eqb_refl. cbn [py_assert bind].
  destruct (reshape_eye n) as (T & -> & _). cbn [bind].
  destruct (reshape_op op _ Hr Hc) as (T' & -> & _). cbn [bind].
  destruct (idx_lists n ws Hw) as (fin & out & E1 & E2 & L1 & L2 & N1 & N2).
  rewrite E1. cbn [bind]. rewrite E2. cbn [bind].
  rewrite einsum_ok; [|eapply out_NoDup; eauto|eapply incl_out; eauto]. cbn [bind].
  eexists; split; [reflexivity|]. split; reflexivity.
Qed.

Lemma map_label_val ls vs xs ys : List.length xs = List.length ys ->
  (forall i, (i < List.length xs)%nat -> label_val ls vs (nth i xs 0%nat) = nth i ys 0%nat) ->
  map (label_val ls vs) xs = ys.
Proof.
  intros L H. apply list_ext; [rewrite map_length; auto|]. rewrite map_length. intros p Hp.
  rewrite (nth_indep _ 0%nat (label_val ls vs 0%nat)) by (rewrite map_length; auto).
  rewrite map_nth. auto.
Qed.

Lemma bitlist_app n m a b : bitlist n a -> bitlist m b -> bitlist (n + m) (a ++ b).
Proof. intros [<- Ha] [<- Hb]. split; [apply app_length|apply Forall_app; auto]. Qed.

(** the value for distinct wires *)
Lemma full_is_emb n ws (op : arr K) : ws <> [] -> wires_ok n ws ->
  a_rows op = (2 ^ List.length ws)%nat -> a_cols op = (2 ^ List.length ws)%nat ->
  exists F, get_full_operator op ws n = Ok F /\ a_rows F = (2 ^ n)%nat /\ a_cols F = (2 ^ n)%nat /\
    meq (2 ^ n) (a_ent F) (emb n ws (a_ent op)).
Proof.
  intros Hne [Hnd Hw] Hr Hc. unfold get_full_operator.
  destruct (py_max_lt ws n Hne Hw) as (m & -> & Hm). cbn [bind]. rewrite Hm. cbn [py_assert bind].
  rewrite Hr, int_log2_pow. cbn [bind]. rewrite Nat.eqb_refl. cbn [py_assert bind].
  destruct (reshape_eye n) as (T & -> & HT). cbn [bind].
  destruct (reshape_op op _ Hr Hc) as (T' & -> & HT'). cbn [bind].
  destruct (idx_lists n ws Hw) as (fin & out & E1 & E2 & L1 & L2 & N1 & N2).
  rewrite E1. cbn [bind]. rewrite E2. cbn [bind].
  pose proof (out_NoDup n ws out L2 N2) as Hod.
  rewrite einsum_ok; [|auto|eapply incl_out; eauto]. cbn [bind].
  eexists; split; [reflexivity|]. split; [reflexivity|]. split; [reflexivity|].
  intros r c Hrr Hcc. unfold unreshape2. cbn [a_ent].
  set (k := List.length ws) in *.
  assert (Hlast : forall p, lastidx p ws 0 = index_of p ws).
  { intros p. rewrite lastidx_index by auto. destruct (index_of p ws); auto. }
  assert (Hk : forall i, (i < k)%nat -> nth (nth i ws 0%nat) out 0%nat = i).
  { intros i Hi. rewrite N2.
    - rewrite Hlast, index_of_nth; auto.
    - rewrite Forall_forall in Hw. specialize (Hw (nth i ws 0%nat) (nth_In _ _ Hi)). lia. }
  assert (Hwn : forall i, (i < k)%nat -> (nth i ws 0 < n)%nat).
  { intros i Hi. rewrite Forall_forall in Hw. apply Hw, nth_In; auto. }
  assert (Hno : forall i, (i < k)%nat -> mem (k + i) out = false).
  { intros i Hi. apply mem_nIn. intros Hin. apply In_nth with (d := 0%nat) in Hin. destruct Hin as (p & Hp & E).
    rewrite L2 in Hp. rewrite N2 in E by auto. destruct (lastidx p ws 0) as [j|] eqn:Ej; [apply lastidx_Some in Ej; fold k in Ej|]; lia. }
  assert (Hsum : filter (fun x => negb (mem x out)) (dedup (seq 0 (2 * k) ++ fin)) = seq k k).
  { rewrite dedup_app by apply seq_NoDup. rewrite filter_app.
    replace (2 * k)%nat with (k + k)%nat at 1 by lia. rewrite seq_app, filter_app.
    rewrite (filter_false _ (seq 0 k)).
    2:{ intros x Hx. apply in_seq in Hx. apply negb_false_iff, mem_In. rewrite <- (Hk x) by lia.
        apply nth_In. rewrite L2. specialize (Hwn x). lia. }
    rewrite (filter_true _ (seq (0 + k) k)).
    2:{ intros x Hx. apply in_seq in Hx. apply negb_true_iff. replace x with (k + (x - k))%nat by lia. apply Hno. lia. }
    rewrite (filter_false _ (filter _ _)); [rewrite app_nil_r; auto|].
    intros x Hx. apply filter_In in Hx. destruct Hx as [Hx Hx']. rewrite dedup_In in Hx.
    apply negb_false_iff, mem_In. apply negb_true_iff, mem_nIn in Hx'. rewrite in_seq in Hx'.
    apply In_nth with (d := 0%nat) in Hx. destruct Hx as (p & Hp & <-). rewrite L1 in Hp. specialize (N1 p Hp). specialize (N2 p Hp).
    rewrite N1 in *. destruct (lastidx p ws 0) as [j|] eqn:Ej; [apply lastidx_Some in Ej; fold k in Ej; lia|].
    rewrite <- N2. apply nth_In. lia. }
  rewrite Hsum, seq_length.
  pose proof (bits_bitlist n r Hrr) as Br. pose proof (bits_bitlist n c Hcc) as Bc.
  set (br := bits n r) in *. set (bc := bits n c) in *.
  assert (Lo : List.length out = List.length (br ++ bc)).
  { rewrite app_length, (proj1 Br), (proj1 Bc). lia. }
  transitivity (lsum (fun s => a_ent op (unbits (sel ws br)) (unbits s) * mid (unbits (upd br ws s)) (unbits bc)) (allbits k)).
  { apply lsum_ext. intros s Hs. apply allbits_spec in Hs.
    assert (Hlv : forall x, label_val (out ++ seq k k) ((br ++ bc) ++ s) x
               = if mem x out then label_val out (br ++ bc) x else label_val (seq k k) s x).
    { intros x. apply label_val_app; auto. }
    assert (Hs_val : forall i, (i < k)%nat -> label_val (seq k k) s (k + i)%nat = nth i s 0%nat).
    { intros i Hi. rewrite <- (seq_nth k (len := k) 0%nat Hi).
      apply label_val_nth; [apply seq_NoDup|rewrite seq_length; symmetry; apply Hs|rewrite seq_length; auto]. }
    assert (Ho_val : forall p, (p < 2 * n)%nat -> label_val (out ++ seq k k) ((br ++ bc) ++ s) (nth p out 0%nat) = nth p (br ++ bc) 0%nat).
    { intros p Hp. rewrite Hlv. replace (mem (nth p out 0%nat) out) with true.
      - apply label_val_nth; auto. lia.
      - symmetry. apply mem_In, nth_In. lia. }
    f_equal.
    - rewrite (map_label_val _ _ _ (sel ws br ++ s)).
      + apply HT'; [eapply sel_bitlist; eauto|auto].
      + rewrite seq_length, app_length, sel_length, (proj1 Hs). fold k. lia.
      + rewrite seq_length. intros i Hi. rewrite seq_nth by auto. simpl.
        destruct (Nat.lt_ge_cases i k) as [Hik|Hik].
        * rewrite app_nth1 by (rewrite sel_length; auto). rewrite nth_sel by auto.
          rewrite <- (Hk i Hik) at 1. rewrite Ho_val by (specialize (Hwn i Hik); lia).
          rewrite app_nth1 by (rewrite (proj1 Br); auto). auto.
        * rewrite app_nth2 by (rewrite sel_length; auto). rewrite sel_length. fold k.
          rewrite Hlv. replace i with (k + (i - k))%nat at 1 by lia. rewrite Hno by lia.
          replace i with (k + (i - k))%nat at 1 by lia. apply Hs_val. lia.
    - rewrite (map_label_val _ _ _ (upd br ws s ++ bc)).
      + apply HT; [eapply upd_bitlist; eauto|auto].
      + rewrite L1, app_length, upd_length, (proj1 Br), (proj1 Bc). lia.
      + rewrite L1. intros p Hp. rewrite N1 by auto. rewrite Hlast.
        destruct (index_of p ws) as [i|] eqn:Ei.
        * pose proof (index_of_Some _ _ _ Ei) as Ei'.
          assert (Hik : (i < k)%nat) by (apply nth_error_Some; congruence).
          assert (Hpn : (p < n)%nat).
          { rewrite Forall_forall in Hw. apply Hw. eapply nth_error_In; eauto. }
          rewrite app_nth1 by (rewrite upd_length, (proj1 Br); auto).
          rewrite nth_upd by (rewrite (proj1 Br); auto). rewrite Ei.
          rewrite Hlv, Hno by auto. apply Hs_val; auto.
        * specialize (N2 p Hp). rewrite Hlast, Ei in N2. rewrite <- N2, Ho_val by auto.
          destruct (Nat.lt_ge_cases p n) as [Hpn|Hpn].
          -- rewrite !app_nth1 by (rewrite ?upd_length, (proj1 Br); auto).
             rewrite nth_upd by (rewrite (proj1 Br); auto). rewrite Ei. auto.
          -- rewrite !app_nth2 by (rewrite ?upd_length, (proj1 Br); auto). rewrite upd_length. auto. }
  unfold emb. fold br bc.
  assert (Bl : List.length br = n) by apply Br. assert (Bl' : List.length bc = n) by apply Bc.
  destruct (agree_off n ws br bc) eqn:Ea.
  - rewrite (lsum_single _ _ (sel ws bc)).
    + rewrite (upd_sel n) by auto. rewrite mid_eq. ring.
    + apply allbits_NoDup.
    + apply allbits_spec. eapply sel_bitlist; eauto.
    + intros s Hs Hne'. apply allbits_spec in Hs. rewrite mid_neq; [ring|].
      intros E. apply (unbits_inj n) in E; [|eapply upd_bitlist; eauto|auto].
      apply Hne'. rewrite <- E. rewrite (sel_upd n); auto; [split; auto|apply Hs].
  - apply lsum_zero. intros s Hs. apply allbits_spec in Hs. rewrite mid_neq; [ring|].
    intros E. apply (unbits_inj n) in E; [|eapply upd_bitlist; eauto|auto].
    assert (agree_off n ws br bc = true) by (rewrite <- E; apply upd_agree; auto). congruence.
Qed.

Lemma pow2_divisor m : forall d e, (d * e = 2 ^ m)%nat -> exists j, d = (2 ^ j)%nat.
Proof.
  induction m as [|m IH]; intros d e H; simpl in H.
  - exists 0%nat. apply Nat.eq_mul_1 in H. simpl. tauto.
  - destruct (Nat.Even_or_Odd d) as [[d' Hd]|[d' Hd]].
    + destruct (IH d' e) as [j Hj]; [nia|]. exists (S j). simpl. lia.
    + destruct (Nat.Even_or_Odd e) as [[e' He]|[e' He]]; [|nia].
      apply (IH d e'). nia.
Qed.

(** exactly when it raises *)
Lemma full_raises n ws (op : arr K) :
  (exists e, get_full_operator op ws n = Err e) <->
  (ws = [] \/ Exists (fun w => n <= w)%nat ws \/ a_rows op <> (2 ^ List.length ws)%nat \/ a_cols op <> (2 ^ List.length ws)%nat).
Proof.
  split.
  - intros [e He]. destruct ws as [|w0 ws0] eqn:Ews; [auto|]. rewrite <- Ews in *.
    assert (Hne : ws <> []) by (subst; discriminate). clear Ews.
    destruct (Forall_dec (fun w => w < n)%nat (fun w => lt_dec w n) ws) as [Hw|Hw].
    + destruct (Nat.eq_dec (a_rows op) (2 ^ List.length ws)) as [Hr|]; [|auto].
      destruct (Nat.eq_dec (a_cols op) (2 ^ List.length ws)) as [Hc|]; [|auto].
      destruct (full_total n ws op Hne Hw Hr Hc) as (F & E & _). congruence.
    + right; left. apply Exists_exists. apply neg_Forall_Exists_neg in Hw; [|intros; apply lt_dec].
      apply Exists_exists in Hw. destruct Hw as (x & Hx & Hn). exists x. split; auto. lia.
  - intros H. unfold get_full_operator.
    destruct ws as [|w0 ws0] eqn:Ews; [exists ValueError; reflexivity|]. rewrite <- Ews in *.
    assert (Hne : ws <> []) by (subst; discriminate). clear Ews.
    destruct (Forall_dec (fun w => w < n)%nat (fun w => lt_dec w n) ws) as [Hw|Hw].
    2:{ destruct (py_max_ge ws n Hw) as (m & -> & Hm). cbn [bind]. rewrite Hm. eexists; reflexivity. }
    destruct (py_max_lt ws n Hne Hw) as (m & -> & Hm). cbn [bind]. rewrite Hm. cbn [py_assert bind].
    unfold int_log2. destruct (a_rows op) as [|r0] eqn:Er; [eexists; reflexivity|]. rewrite <- Er in *. clear r0 Er. cbn [bind].
    destruct (Nat.eqb_spec (Nat.log2 (a_rows op)) (List.length ws)) as [E|E]; [|eexists; reflexivity]. cbn [py_assert bind].
    destruct (reshape_eye n) as (T & -> & _). cbn [bind].
    unfold np_reshape2. destruct (Nat.eqb_spec (a_rows op * a_cols op) (2 ^ (2 * List.length ws))) as [E'|E']; [|eexists; reflexivity].
    exfalso. set (k := List.length ws) in *.
    destruct (pow2_divisor (2 * k) _ _ E') as [j Hj]. rewrite Hj, Nat.log2_pow2 in E by lia. subst j.
    rewrite Hj in E'. replace (2 * k)%nat with (k + k)%nat in E' by lia. rewrite Nat.pow_add_r in E'.
    apply Nat.mul_cancel_l in E'; [|apply pow2_nz].
    destruct H as [H|[H|[H|H]]]; try congruence.
    apply Exists_exists in H. destruct H as (x & Hx & Hx'). rewrite Forall_forall in Hw. specialize (Hw x Hx). lia.
Qed.

End S.
