(** Lemmas about parametrised circuits of Pauli rotations: the cost along one
    parameter, and its derivative along any direction of the parameters. *)
From Coq Require Import ZArith Arith Lia Bool String Reals Lra Ring Setoid Morphisms Classical.
From Coquelicot Require Import Coquelicot.
From Verif Require Import Py StarRing Matrix Cplx PauliSpec Bits PauliBasis Expm MDeriv UtilsModel CircuitModel CircuitProofs CircuitProofs2 LayerModel LayerProofs OptimizerModel OptProofs RotoProofs
  FlowModel FlowProofs FlowProofs2 FlowMany AdaptModel AdaptProofs ShiftModel PropLayers PropGreedy PropOptArgs PropOptRun PropFlow PropMany.
From Coq Require Import List.
Import ListNotations.
Local Open Scope nat_scope.
Local Open Scope list_scope.

(** ** Slots *)
Inductive slot := Fixed (g : agate) | Param (j k : nat) (word : string) (wires : list nat).

Definition fill (a : nat -> nat -> R) (s : slot) : agate :=
  match s with Fixed g => g | Param j k w q => ARot (a j k) w q end.
Definition slot_valid (n : nat) (s : slot) : Prop := valid_qop n (gate_qop (fill (fun _ _ => 0%R) s)).
Definition angles (p : rows) : nat -> nat -> R := fun j k => nth k (nth j p []) 0%R.
(** the direction of a slot *)
Definition along (h : nat -> nat -> R) (s : slot) : R := match s with Fixed _ => 0%R | Param j k _ _ => h j k end.

Lemma word_letters s : Forall (fun g => g <= 3) (word_of s).
Proof. induction s as [|c s IH]; constructor; [|exact IH]. unfold letter_index. repeat (destruct (Ascii.eqb _ _); [lia|]). lia. Qed.

Lemma rot_general n w q : valid_qop n (gate_qop (ARot 0 w q)) -> exists P : mat C, meq (2 ^ n) (mmul (2 ^ n) P P) mid /\
  forall t, valid_qop n (gate_qop (ARot t w q)) /\ meq (2 ^ n) (qmat n (gate_qop (ARot t w q))) (expm (2 ^ n) (mscale (mit (t / 2)) P)).
Proof.
  intros (H1 & H2 & H3 & H4 & H5). cbn [gate_qop q_wires q_matrix a_rows a_cols] in *.
  assert (L : List.length (word_of w) = List.length q) by (apply (Nat.pow_inj_r 2); [lia|exact H4]).
  assert (Hok : wires_ok n q) by (split; auto).
  pose proof (pword_sq (K := C) (word_of w) (word_letters w)) as Sq. rewrite L in Sq.
  assert (SqE : meq (2 ^ n) (mmul (2 ^ n) (emb n q (pword (word_of w))) (emb n q (pword (word_of w)))) mid).
  { rewrite emb_mul by auto. rewrite <- (emb_id n q) by auto. apply emb_proper. exact Sq. }
  exists (emb n q (pword (word_of w))). split; [exact SqE|]. intros t. split.
  - split; [exact H1|]. split; [exact H2|]. split; [exact H3|]. split; [exact H4|exact H5].
  - unfold qmat. cbn [gate_qop q_wires q_matrix a_ent]. rewrite L.
    rewrite (emb_proper n q _ (madd (mscale (RtoC (cos (t / 2))) mid) (mscale (mit (sin (t / 2))) (pword (word_of w))))) by (apply expm_involution; exact Sq).
    rewrite emb_add, !emb_scale, emb_id by auto. symmetry. apply expm_involution. exact SqE.
Qed.

Lemma fill_valid n a s : slot_valid n s -> valid_qop n (gate_qop (fill a s)).
Proof. destruct s as [g|j k w q]; [auto|]. intros H. destruct (rot_general n w q H) as (P & _ & HP). apply HP. Qed.

(** the matrix of the filled slots, in the order of application *)
Definition slots_mat (n : nat) (a : nat -> nat -> R) (l : list slot) : mat C := mprod (2 ^ n) (map (fun s => qmat n (gate_qop (fill a s))) (rev l)).

Lemma slots_unitary n a l : Forall (slot_valid n) l -> exists U, circuit_unitary n (map gate_qop (map (fill a) l)) = Ok U /\ meq (2 ^ n) (a_ent U) (slots_mat n a l).
Proof.
  intros H. destruct (circuit_unitary_spec n (map gate_qop (map (fill a) l))) as (U & E & _ & _ & M).
  { rewrite map_map. apply Forall_map. eapply Forall_impl; [|exact H]. intros s. apply fill_valid. }
  exists U. split; [exact E|]. unfold slots_mat. rewrite M. rewrite <- !map_rev, !map_map. reflexivity.
Qed.

Lemma energy_meq n Fs u v : meq (2 ^ n) u v -> energy n Fs u = energy n Fs v.
Proof. intros H. rewrite !energy_quad. f_equal. apply quad_veq. intros i Hi. apply H; [exact Hi|apply pow2_pos']. Qed.

Lemma slots_cost n obs Fs circ p l : Forall2 (fun o F => full n o = Ok F) obs Fs -> Forall (slot_valid n) l -> circ p = Ok (map (fill (angles p)) l) ->
  vqe_cost n obs circ p = Ok (energy n Fs (slots_mat n (angles p) l)).
Proof.
  intros HF Hl E. unfold vqe_cost. rewrite E. cbn [bind]. destruct (slots_unitary n (angles p) l Hl) as (U & EU & MU). rewrite EU. cbn [bind].
  rewrite (cost_energy n obs Fs _ HF). f_equal. apply energy_meq. exact MU.
Qed.

(** ** One parameter *)
Lemma quad_push d (A V M : mat C) : quad d (qnode_state (mmul d A V)) M = quad d (qnode_state V) (mmul d (madj A) (mmul d M A)).
Proof.
  rewrite state_mmul, !quad_ip. set (x := qnode_state V).
  rewrite (ip_ext d x x (mv d (mmul d (madj A) (mmul d M A)) x) (mv d (madj A) (mv d M (mv d A x)))).
  - rewrite (ip_adj d (madj A) x). apply ip_ext; [|apply veq_refl]. apply mv_ext; [|apply veq_refl]. intros i j _ _. symmetry. apply madj_adj.
  - apply veq_refl.
  - intros i Hi. rewrite mv_mul. apply mv_veq; [|assumption]. intros k _. apply mv_mul.
Qed.

Definition keys (l : list slot) : list (nat * nat) := flat_map (fun s => match s with Fixed _ => [] | Param j k _ _ => [(j, k)] end) l.
Definition upd (a : nat -> nat -> R) (j k : nat) (x : R) : nat -> nat -> R := fun j' k' => if Nat.eqb j' j && Nat.eqb k' k then x else a j' k'.

Lemma upd_same a j k x : upd a j k x j k = x.
Proof. unfold upd. rewrite !Nat.eqb_refl. reflexivity. Qed.
Lemma upd_other a j k x j' k' : (j', k') <> (j, k) -> upd a j k x j' k' = a j' k'.
Proof. intros H. unfold upd. destruct (Nat.eqb_spec j' j), (Nat.eqb_spec k' k); subst; simpl; congruence. Qed.

Lemma fill_upd a j k x l : ~ In (j, k) (keys l) -> map (fill (upd a j k x)) l = map (fill a) l.
Proof.
  intros H. apply map_ext_in. intros [g|j' k' w q] Hs; [reflexivity|]. cbn [fill]. f_equal. apply upd_other. intros E. apply H. rewrite <- E.
  unfold keys. apply in_flat_map. exists (Param j' k' w q). split; [exact Hs|left; reflexivity].
Qed.
Lemma slots_mat_upd n a j k x l : ~ In (j, k) (keys l) -> slots_mat n (upd a j k x) l = slots_mat n a l.
Proof.
  intros H. unfold slots_mat. rewrite <- (map_map (fill (upd a j k x)) (fun g => qmat n (gate_qop g))), <- (map_map (fill a) (fun g => qmat n (gate_qop g))).
  rewrite !map_rev, fill_upd by exact H. reflexivity.
Qed.

Lemma keys_split j k l : In (j, k) (keys l) -> NoDup (keys l) -> exists l1 w q l2, l = l1 ++ Param j k w q :: l2 /\ ~ In (j, k) (keys l1) /\ ~ In (j, k) (keys l2).
Proof.
  induction l as [|s l IH]; intros Hi Hn; [destruct Hi|]. destruct s as [g|j' k' w q].
  - destruct (IH Hi Hn) as (l1 & w & q & l2 & -> & H1 & H2). exists (Fixed g :: l1), w, q, l2. auto.
  - cbn [keys flat_map app] in Hi, Hn. inversion Hn as [|x y Hx Hn']; subst. destruct Hi as [E|Hi].
    + injection E as -> ->. exists [], w, q, l. split; [reflexivity|]. split; [intros []|exact Hx].
    + destruct (IH Hi Hn') as (l1 & w' & q' & l2 & -> & H1 & H2). exists (Param j' k' w q :: l1), w', q', l2. split; [reflexivity|]. split; [|exact H2].
      cbn [keys flat_map app]. intros [E|H]; [|exact (H1 H)]. injection E as -> ->. exact (Hx Hi).
Qed.

Lemma slots_mat_app n a l m : meq (2 ^ n) (slots_mat n a (l ++ m)) (mmul (2 ^ n) (slots_mat n a m) (slots_mat n a l)).
Proof. unfold slots_mat. rewrite rev_app_distr, map_app. apply mprod_app. Qed.
Lemma slots_mat_one n a s : meq (2 ^ n) (slots_mat n a [s]) (qmat n (gate_qop (fill a s))).
Proof. unfold slots_mat. cbn [rev app map mprod]. apply mmul_1_r. Qed.

(** the cost along a parameter that is read by one rotation *)
Lemma one_param n Fs a l j k : Forall (slot_valid n) l -> NoDup (keys l) -> exists al be ga, forall x,
  energy n Fs (slots_mat n (upd a j k x) l) = (al + be * cos x + ga * sin x)%R.
Proof.
  intros Hl Hn. destruct (classic (In (j, k) (keys l))) as [Hi|Hi].
  - destruct (keys_split j k l Hi Hn) as (l1 & w & q & l2 & -> & H1 & H2). apply Forall_app in Hl. destruct Hl as [_ Hl]. apply Forall_inv in Hl.
    destruct (rot_general n w q Hl) as (P & Sq & HP).
    set (A := slots_mat n a l2). set (B := slots_mat n a l1). set (M := mmul (2 ^ n) (madj A) (mmul (2 ^ n) (msum a_ent Fs) A)).
    pose proof (fun t => roto_quad (2 ^ n) P M B t (pow2_pos' n) Sq) as Q. cbv zeta in Q.
    eexists. eexists. eexists. intros x.
    assert (E : meq (2 ^ n) (slots_mat n (upd a j k x) (l1 ++ Param j k w q :: l2)) (mmul (2 ^ n) A (mmul (2 ^ n) (expm (2 ^ n) (mscale (mit (x / 2)) P)) B))).
    { rewrite slots_mat_app. change (Param j k w q :: l2) with ([Param j k w q] ++ l2). rewrite slots_mat_app, slots_mat_one, !slots_mat_upd by assumption.
      cbn [fill]. rewrite upd_same. fold A B. rewrite (proj2 (HP x)). rewrite mmul_assoc. reflexivity. }
    rewrite (energy_meq _ _ _ _ E), energy_quad, quad_push. fold M. rewrite Q. replace (2 * (x / 2))%R with x by field. reflexivity.
  - exists (energy n Fs (slots_mat n a l)), 0%R, 0%R. intros x. rewrite slots_mat_upd by exact Hi. ring.
Qed.

(** ** All parameters *)
Definition moved (a h : nat -> nat -> R) (t : R) : nat -> nat -> R := fun j k => (a j k + t * h j k)%R.

Lemma slot_der n a s : slot_valid n s -> exists D, forall h,
  mder (2 ^ n) (fun t => qmat n (gate_qop (fill (moved a h t) s))) 0 (mscale (RtoC (along h s)) D).
Proof.
  destruct s as [g|j k w q]; intros Hs.
  - exists mzero. intros h. cbn [fill along]. eapply (mder_ext _ (fun _ => qmat n (gate_qop g))); [intros t; reflexivity| |apply mder_const]. intros i c _ _. unfold mscale, mzero. cbn [kmul k0 CStar]. ring.
  - destruct (rot_general n w q Hs) as (P & Sq & HP).
    exists (madd (mscale (RtoC (- sin (a j k / 2) / 2)) mid) (mscale (mit (cos (a j k / 2) / 2)) P)). intros h. cbn [fill along]. unfold moved.
    eapply (mder_ext _ (fun t => madd (mscale (RtoC (cos ((a j k + t * h j k) / 2))) mid) (mscale (mit (sin ((a j k + t * h j k) / 2))) P))).
    + intros t. rewrite (proj2 (HP _)). symmetry. apply expm_involution. exact Sq.
    + reflexivity.
    + intros i c Hi Hc. unfold madd, mscale. cbn [kadd kmul CStar].
      assert (Dc : cder (fun t => RtoC (cos ((a j k + t * h j k) / 2))) 0 (RtoC (h j k * (- sin (a j k / 2) / 2)))).
      { split; simpl; [|apply (is_derive_const (V := R_NormedModule))]. auto_derive; [exact I|]. rewrite Rmult_0_l, Rplus_0_r. unfold Rdiv. ring. }
      assert (Ds : cder (fun t => mit (sin ((a j k + t * h j k) / 2))) 0 (mit (h j k * (cos (a j k / 2) / 2)))).
      { unfold mit. split; simpl.
        - eapply is_derive_extR; [| |apply (is_derive_const (K := R_AbsRing) (V := R_NormedModule) 0%R 0%R)]; [intros t; simpl; ring|simpl; unfold zero; simpl; ring].
        - auto_derive; [exact I|]. rewrite Rmult_0_l, Rplus_0_r. unfold Rdiv. ring. }
      eapply cder_ext; [| |apply (cder_plus _ _ _ _ _ (cder_mult _ _ _ _ _ Dc (cder_const (mid i c) 0)) (cder_mult _ _ _ _ _ Ds (cder_const (P i c) 0)))].
      * intros t. reflexivity.
      * cbn beta. unfold mit. destruct (mid i c), (P i c). apply C_ext; simpl; ring.
Qed.

Definition combo (d : nat) (h : nat -> nat -> R) (l : list slot) (Ds : list (mat C)) : mat C :=
  msum (fun sd => mscale (RtoC (along h (fst sd))) (snd sd)) (combine l Ds).

Lemma moved_0 a h j k : moved a h 0 j k = a j k.
Proof. unfold moved. ring. Qed.
Lemma fill_ext a b s : (forall j k, a j k = b j k) -> fill a s = fill b s.
Proof. intros H. destruct s; cbn [fill]; rewrite ?H; reflexivity. Qed.

Lemma slots_der n a l : Forall (slot_valid n) l -> exists Ds, List.length Ds = List.length l /\ forall h,
  mder (2 ^ n) (fun t => slots_mat n (moved a h t) l) 0 (combo (2 ^ n) h l Ds).
Proof.
  induction 1 as [|s l Hs Hl (Ds & L & HD)].
  - exists []. split; [reflexivity|]. intros h. eapply (mder_ext _ (fun _ => mid)); [intros t; reflexivity| |apply (mder_const _ mid)]. intros i j _ _. reflexivity.
  - destruct (slot_der n a s Hs) as (D & H1). exists (mmul (2 ^ n) (slots_mat n a l) D :: map (fun E => mmul (2 ^ n) E (qmat n (gate_qop (fill a s)))) Ds).
    split; [cbn [List.length]; rewrite map_length, L; reflexivity|]. intros h.
    eapply mder_ext; [| |apply (mder_mul _ _ _ _ _ _ (HD h) (H1 h))].
    + intros t. cbn beta. change (s :: l) with ([s] ++ l). rewrite slots_mat_app, slots_mat_one. reflexivity.
    + assert (E1 : fill (moved a h 0) s = fill a s) by (apply fill_ext; intros; apply moved_0).
      assert (E2 : slots_mat n (moved a h 0) l = slots_mat n a l).
      { unfold slots_mat. f_equal. apply map_ext. intros x. do 2 f_equal. apply fill_ext. intros; apply moved_0. }
      rewrite E1, E2. unfold combo at 1. rewrite mmul_msum_l. unfold combo. cbn [combine].
      intros i j Hi Hj. unfold msum. rewrite lsum_cons. unfold madd. cbn [kadd CStar fst snd].
      rewrite Cplus_comm. f_equal.
      * rewrite (mmul_scale_r (2 ^ n) (RtoC (along h s)) (slots_mat n a l) D i j Hi Hj). reflexivity.
      * clear -Hi Hj. revert Ds. induction l as [|s' l IH]; intros [|D' Ds]; cbn [combine map]; try reflexivity. rewrite !lsum_cons, IH. f_equal. cbn [fst snd].
        apply (mmul_scale_l (2 ^ n) (RtoC (along h s')) D' (qmat n (gate_qop (fill a s))) i j Hi Hj).
Qed.

(** the derivative of the expectation value is linear in that of the state *)
Definition first_order (d : nat) (H : mat C) (x v : nat -> C) : R := Re (Cplus (ip d v (mv d H x)) (ip d x (mv d H v))).

Lemma first_order_add d H x v w : first_order d H x (fun i => Cplus (v i) (w i)) = (first_order d H x v + first_order d H x w)%R.
Proof.
  unfold first_order. rewrite ip_add_l. rewrite (ip_ext d x x (mv d H (fun i => Cplus (v i) (w i))) (fun i => Cplus (mv d H v i) (mv d H w i))); [|apply veq_refl|intros i _; apply mv_add_vec].
  rewrite ip_add_r. destruct (ip d v (mv d H x)), (ip d w (mv d H x)), (ip d x (mv d H v)), (ip d x (mv d H w)). simpl. ring.
Qed.
Lemma first_order_scale d H x r v : first_order d H x (fun i => Cmult (RtoC r) (v i)) = (r * first_order d H x v)%R.
Proof.
  unfold first_order. rewrite ip_scale_l. rewrite (ip_ext d x x (mv d H (fun i => Cmult (RtoC r) (v i))) (fun i => Cmult (RtoC r) (mv d H v i))); [|apply veq_refl|intros i _; apply mv_scale].
  rewrite ip_scale_r. destruct (ip d v (mv d H x)), (ip d x (mv d H v)). simpl. ring.
Qed.

Lemma first_order_ext d H x v w : veq d v w -> first_order d H x v = first_order d H x w.
Proof. intros E. unfold first_order. do 2 f_equal; apply ip_ext; try apply veq_refl; [exact E|apply mv_veq; exact E]. Qed.

Lemma first_order_combo d H x h l : forall Ds, first_order d H x (qnode_state (combo d h l Ds)) =
  rsum (fun sd => along h (fst sd) * first_order d H x (qnode_state (snd sd)))%R (combine l Ds).
Proof.
  induction l as [|s l IH]; intros [|D Ds].
  1-3: unfold combo; cbn [combine]; rewrite (first_order_ext d H x _ (fun i => Cmult (RtoC 0) (RtoC 0))) by (intros i _; unfold qnode_state, msum; rewrite lsum_nil; cbn [k0 CStar]; ring); rewrite first_order_scale; cbn; ring.
  cbn [combine rsum map fold_right]. rewrite <- IH. rewrite <- first_order_scale, <- first_order_add. reflexivity.
Qed.

Lemma slots_slope n Fs a l : Forall (slot_valid n) l -> exists cs, List.length cs = List.length l /\ forall h,
  is_derive (fun t => energy n Fs (slots_mat n (moved a h t) l)) 0%R (rsum (fun sc => along h (fst sc) * snd sc)%R (combine l cs)).
Proof.
  intros Hl. destruct (slots_der n a l Hl) as (Ds & L & HD). set (H := msum a_ent Fs). set (x := qnode_state (slots_mat n a l)).
  exists (map (fun D => first_order (2 ^ n) H x (qnode_state D)) Ds). split; [rewrite map_length; exact L|]. intros h.
  pose proof (quad_der (2 ^ n) _ _ H (pow2_pos' n) (HD h)) as [Q _].
  assert (E : slots_mat n (moved a h 0) l = slots_mat n a l).
  { unfold slots_mat. f_equal. apply map_ext. intros y. do 2 f_equal. apply fill_ext. intros; apply moved_0. }
  eapply is_derive_extR; [| |exact Q].
  - intros t. cbn beta. symmetry. apply energy_quad.
  - rewrite E. fold x. change (Re _) with (first_order (2 ^ n) H x (qnode_state (combo (2 ^ n) h l Ds))). rewrite first_order_combo.
    clearbody x. clear. revert Ds. induction l as [|s l IH]; intros [|D Ds]; try reflexivity. cbn [combine map rsum fold_right fst snd] in *. rewrite IH. reflexivity.
Qed.

(** ** Entries of the parameters *)
Definition in_shape (p : rows) (j k : nat) : Prop := k < List.length (nth j p []).

Lemma in_shape_row p j k : in_shape p j k -> j < List.length p.
Proof. unfold in_shape. intros H. destruct (Nat.lt_ge_cases j (List.length p)) as [E|E]; [exact E|]. rewrite nth_overflow in H by exact E. simpl in H. lia. Qed.

Lemma nth_replace {A} (d x : A) l : forall i j, nth j (replace_at l i x) d = if Nat.eqb i j && Nat.ltb j (List.length l) then x else nth j l d.
Proof.
  induction l as [|a l IH]; intros i j; cbn [replace_at List.length]; [rewrite andb_false_r; destruct j; reflexivity|].
  destruct i as [|i]; destruct j as [|j]; cbn [nth Nat.eqb andb]; try reflexivity. rewrite IH. reflexivity.
Qed.
Lemma replace_length {A} (x : A) l : forall i, List.length (replace_at l i x) = List.length l.
Proof. induction l as [|a l IH]; intros [|i]; cbn [replace_at List.length]; auto. Qed.

Lemma angles_set p j k x j' k' : in_shape p j k -> angles (set_entry p j k x) j' k' = upd (angles p) j k x j' k'.
Proof.
  intros H. pose proof (in_shape_row p j k H) as Hj. unfold angles, set_entry, upd. rewrite nth_replace. rewrite (Nat.eqb_sym j' j), (Nat.eqb_sym k' k).
  destruct (Nat.eqb_spec j j') as [<-|Hne]; [|reflexivity]. apply Nat.ltb_lt in Hj. rewrite Hj. cbn [andb]. rewrite nth_replace.
  destruct (Nat.eqb_spec k k') as [<-|Hne]; [|reflexivity]. apply Nat.ltb_lt in H. rewrite H. reflexivity.
Qed.

Lemma map_nth_len (p q : rows) : List.length p = List.length q -> (forall j, List.length (nth j p []) = List.length (nth j q [])) -> map (@List.length R) p = map (@List.length R) q.
Proof.
  revert q. induction p as [|r p IH]; intros [|s q] L H; try discriminate; [reflexivity|]. cbn [map]. f_equal; [exact (H 0)|]. apply IH; [simpl in L; lia|]. intros j. exact (H (S j)).
Qed.
Lemma len_nth_map (p q : rows) : map (@List.length R) p = map (@List.length R) q -> forall j, List.length (nth j p []) = List.length (nth j q []).
Proof. intros H j. rewrite <- !(map_nth (@List.length R)). change (List.length []) with 0. cbn. rewrite H. reflexivity. Qed.

Lemma set_shape p j k x : map (@List.length R) p = map (@List.length R) (set_entry p j k x).
Proof.
  apply map_nth_len; unfold set_entry; [rewrite replace_length; reflexivity|]. intros i. rewrite nth_replace.
  destruct (Nat.eqb_spec j i) as [<-|_]; [|reflexivity]. destruct (Nat.ltb j _); cbn [andb]; [rewrite replace_length|]; reflexivity.
Qed.

Lemma nth_enum {A B} (f : nat * A -> B) (l : list A) : forall s i d d', i < List.length l -> nth i (map f (combine (seq s (List.length l)) l)) d' = f (s + i, nth i l d).
Proof.
  induction l as [|a l IH]; intros s i d d' H; [simpl in H; lia|]. cbn [List.length seq combine map nth]. destruct i as [|i]; [rewrite Nat.add_0_r; reflexivity|].
  rewrite (IH (S s) i d d') by (simpl in H; lia). cbn [nth]. f_equal. f_equal. lia.
Qed.

Lemma angles_step cost eta p p' j k : gd_step cost eta p = Ok p' -> in_shape p j k -> angles p' j k = (angles p j k - eta * partial cost p j k)%R.
Proof.
  unfold gd_step. destruct (cost p); [|discriminate]. cbn [bind]. intros E. injection E as <-. intros H. pose proof (in_shape_row p j k H) as Hj. unfold angles.
  unfold enum at 2. rewrite (nth_enum _ p 0 j [] []) by exact Hj. cbn [fst snd Nat.add]. unfold enum. rewrite (nth_enum _ (nth j p []) 0 k 0%R 0%R) by exact H. reflexivity.
Qed.

Lemma angles_out p j k : ~ in_shape p j k -> angles p j k = 0%R.
Proof. unfold in_shape, angles. intros H. apply nth_overflow. lia. Qed.

(** ** Sums over slots and over entries *)
Definition is_key (j k : nat) (s : slot) : R := match s with Fixed _ => 0%R | Param j' k' _ _ => if Nat.eqb j' j && Nat.eqb k' k then 1%R else 0%R end.

Lemma rsum_zero {A} (f : A -> R) l : (forall x, In x l -> f x = 0%R) -> rsum f l = 0%R.
Proof. induction l as [|a l IH]; intros H; cbn; [reflexivity|]. rewrite (H a (or_introl eq_refl)). fold (rsum f l). rewrite IH; [ring|]. intros x Hx. apply H. right. exact Hx. Qed.

Lemma rsum_delta (f : nat -> R) i n : i < n -> rsum (fun j => if Nat.eqb i j then f j else 0%R) (seq 0 n) = f i.
Proof.
  intros Hi. assert (G : forall s, s <= i < s + n -> rsum (fun j => if Nat.eqb i j then f j else 0%R) (seq s n) = f i); [|apply G; lia].
  clear Hi. induction n as [|n IH]; intros s H; [lia|]. cbn [seq]. unfold rsum at 1. cbn [map fold_right]. fold (rsum (fun j => if Nat.eqb i j then f j else 0%R) (seq (S s) n)).
  destruct (Nat.eqb_spec i s) as [->|Hne].
  - rewrite rsum_zero; [ring|]. intros x Hx. apply in_seq in Hx. destruct (Nat.eqb_spec s x); [lia|reflexivity].
  - rewrite IH by lia. ring.
Qed.

(** the sum over all entries *)
Definition all_entries (p : rows) (f : nat -> nat -> R) : R := rsum (fun j => rsum (f j) (seq 0 (List.length (nth j p [])))) (seq 0 (List.length p)).

Lemma all_entries_add p f g : all_entries p (fun j k => f j k + g j k)%R = (all_entries p f + all_entries p g)%R.
Proof.
  assert (A : forall (X : Type) (u v : X -> R) l, rsum (fun x => u x + v x)%R l = (rsum u l + rsum v l)%R).
  { intros X u v l. induction l as [|a l IH]; cbn; [ring|]. fold (rsum u l) (rsum v l). fold (rsum (fun x => u x + v x)%R l). rewrite IH. ring. }
  unfold all_entries. rewrite <- A. apply rsum_ext. intros j _. apply A.
Qed.
Lemma all_entries_ext p f g : (forall j k, in_shape p j k -> f j k = g j k) -> all_entries p f = all_entries p g.
Proof.
  intros H. unfold all_entries. apply rsum_ext. intros j Hj. apply rsum_ext. intros k Hk. apply in_seq in Hk. apply H. unfold in_shape. lia.
Qed.
Lemma all_entries_zero p f : (forall j k, in_shape p j k -> f j k = 0%R) -> all_entries p f = 0%R.
Proof. intros H. apply rsum_zero. intros j Hj. apply rsum_zero. intros k Hk. apply in_seq in Hk. apply H. unfold in_shape. lia. Qed.
Lemma all_entries_delta p f j k : in_shape p j k -> all_entries p (fun j' k' => if Nat.eqb j j' && Nat.eqb k k' then f j' k' else 0%R) = f j k.
Proof.
  intros H. unfold all_entries. rewrite <- (rsum_delta (fun j => f j k) j (List.length p)) by (eapply in_shape_row; exact H).
  apply rsum_ext. intros j' Hj'. destruct (Nat.eqb_spec j j') as [<-|_]; cbn [andb]; [apply rsum_delta; exact H|apply rsum_zero; reflexivity].
Qed.

Lemma regroup p (h : nat -> nat -> R) l : (forall j k, In (j, k) (keys l) -> in_shape p j k) -> forall cs : list R,
  rsum (fun sc => along h (fst sc) * snd sc)%R (combine l cs) =
  all_entries p (fun j k => h j k * rsum (fun sc => is_key j k (fst sc) * snd sc)%R (combine l cs))%R.
Proof.
  induction l as [|s l IH]; intros Hk cs; [cbn; symmetry; apply all_entries_zero; intros; cbn; ring|].
  destruct cs as [|c cs]; [cbn; symmetry; apply all_entries_zero; intros; cbn; ring|]. cbn [combine].
  assert (Hk' : forall j k, In (j, k) (keys l) -> in_shape p j k) by (intros j k H; apply Hk; cbn [keys flat_map]; apply in_or_app; right; exact H).
  transitivity (along h s * c + rsum (fun sc => along h (fst sc) * snd sc) (combine l cs))%R; [reflexivity|]. rewrite (IH Hk' cs).
  rewrite (all_entries_ext p (fun j k => h j k * rsum _ ((s, c) :: combine l cs))%R
    (fun j k => h j k * is_key j k s * c + h j k * rsum (fun sc => is_key j k (fst sc) * snd sc)%R (combine l cs))%R) by (intros j k _; cbn; ring).
  rewrite all_entries_add. f_equal. destruct s as [g|j k w q]; cbn [along is_key].
  - rewrite all_entries_zero; [ring|]. intros; ring.
  - rewrite (all_entries_ext p _ (fun j' k' => if Nat.eqb j j' && Nat.eqb k k' then h j' k' * c else 0)%R).
    + rewrite (all_entries_delta p (fun j' k' => h j' k' * c)%R j k); [reflexivity|]. apply Hk. left. reflexivity.
    + intros j' k' _. destruct (Nat.eqb j j' && Nat.eqb k k'); ring.
Qed.
