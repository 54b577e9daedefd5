(** Proofs about the greedy layers. *)
From Coq Require Import ZArith Arith Lia Bool String Reals Lra Ring Setoid Morphisms.
From Coquelicot Require Import Coquelicot.
From Verif Require Import Py StarRing Matrix Cplx Expm UtilsModel CircuitModel CircuitProofs2 AlgebraModel AlgebraProofs LayerModel LayerProofs LayerProofs2 GreedyModel.
From Coq Require Import List.
Import ListNotations.
Local Open Scope nat_scope.

(** ** The tables *)
Lemma su4_table n b : exists full : list (key * arr C),
  (do a0 <- AlgebraSU4 (K := C) n b; get_all_directions_and_qubits a0) =
    Ok (mkalg (mkcore n (wnames (ks4 b)) (al_paulis (core0 n (ks4 b))) full) (repeat 0 n)) /\
  map fst full = all_keys n (ks4 b) /\ Forall (key_ok n) full.
Proof.
  destruct (enumerate_spec (K := C) n (ks4 b)) as (full & E1 & E2 & E3 & _).
  { apply ks4_NoDup. } { destruct b; simpl; lia. }
  exists full. rewrite AlgebraSU4_eq. cbn [bind]. unfold core0 at 1. rewrite get_all_keys by (destruct b; simpl; lia).
  fold (core0 (K := C) n (ks4 b)). rewrite E1. cbn [bind]. auto.
Qed.

Lemma su2_table n : exists full : list (key * arr C),
  (do a0 <- AlgebraSU2 (K := C) n; get_all_directions_and_qubits a0) =
    Ok (mkalg (mkcore n (wnames [1]) (al_paulis (core0 n [1])) full) (repeat 0 n)).
Proof.
  destruct (enumerate_spec (K := C) n [1]) as (full & E1 & E2 & E3 & _).
  { repeat constructor; simpl; tauto. } { simpl; lia. }
  exists full. rewrite AlgebraSU2_eq. cbn [bind]. unfold core0 at 1. rewrite get_all_keys by (simpl; lia).
  fold (core0 (K := C) n [1]). rewrite E1. reflexivity.
Qed.

Lemma su8_table n b c : exists full : list (key * arr C),
  (do a0 <- AlgebraSU8 (K := C) n b c; get_all_directions_and_qubits8 a0) =
    Ok (mkalg8 (mkcore n (wnames (ks8 b c)) (al_paulis (core0 n (ks8 b c))) full) (qubits8 n b c)) /\
  map fst full = all_keys n (ks8 b c) /\ Forall (key_ok n) full.
Proof.
  destruct (enumerate_spec (K := C) n (ks8 b c)) as (full & E1 & E2 & E3 & _).
  { apply ks8_NoDup. } { destruct b, c; simpl; lia. }
  exists full. rewrite AlgebraSU8_eq. cbn [bind]. unfold core0 at 1. rewrite get_all_keys8.
  fold (core0 (K := C) n (ks8 b c)). rewrite E1. cbn [bind]. auto.
Qed.

(** ** Constructors *)
Lemma eta_ok eta : (0 <= eta <= 1)%R <-> Rleb 0 eta && Rleb eta 1 = true.
Proof. rewrite andb_true_iff, !Rleb_true. tauto. Qed.

Lemma squared_init n obs Fs eta : mapM (full n) obs = Ok Fs -> (0 <= eta <= 1)%R -> exists table,
  SquaredLieAlgebraLayer n obs eta = Ok (mkgreedy n table Fs None) /\
  map fst table = all_keys n [1; 2] /\ Forall (key_ok n) table.
Proof.
  intros EF He. destruct (su4_table n true) as (t & Et & H1 & H2). exists t. split; [|auto].
  unfold SquaredLieAlgebraLayer. rewrite EF. cbn [bind]. apply eta_ok in He. rewrite He. cbn [py_assert bind].
  rewrite AlgebraSU4_eq in *. cbn [bind] in *. rewrite Et. reflexivity.
Qed.

Lemma su8_init n obs Fs eta b c : mapM (full n) obs = Ok Fs -> (0 <= eta <= 1)%R -> 3 <= n -> exists table,
  SU8_AlgebraLayer n obs eta b c = Ok (mkgreedy n table Fs None) /\
  map fst table = all_keys n (ks8 b c) /\ Forall (key_ok n) table.
Proof.
  intros EF He Hn. destruct (su8_table n b c) as (t & Et & H1 & H2). exists t. split; [|auto].
  unfold SU8_AlgebraLayer. rewrite EF. cbn [bind]. apply eta_ok in He. rewrite He. cbn [py_assert bind].
  apply Nat.leb_le in Hn. rewrite Hn. cbn [py_assert bind]. rewrite AlgebraSU8_eq in *. cbn [bind] in *. rewrite Et. reflexivity.
Qed.

Lemma zas_init n obs Fs eta b c ratio : mapM (full n) obs = Ok Fs -> (0 <= eta <= 1)%R -> 3 <= n -> exists t4 t8,
  ZassenhausLayer n obs eta b c ratio = Ok (mkzas n eta t4 t8 Fs ratio 0%Z true None None) /\
  map fst t4 = all_keys n (ks4 b) /\ Forall (key_ok n) t4 /\
  map fst t8 = all_keys n (ks8 b c) /\ Forall (key_ok n) t8.
Proof.
  intros EF He Hn. destruct (su8_table n b c) as (t8 & E8 & H1 & H2). destruct (su4_table n b) as (t4 & E4 & H3 & H4).
  destruct (su2_table n) as (t2 & E2). exists t4, t8. split; [|auto].
  unfold ZassenhausLayer. rewrite EF. cbn [bind]. apply eta_ok in He. rewrite He. cbn [py_assert bind].
  apply Nat.leb_le in Hn. rewrite Hn. cbn [py_assert bind]. rewrite AlgebraSU8_eq, AlgebraSU4_eq, AlgebraSU2_eq in *.
  cbn [bind] in *. rewrite E2. cbn [bind]. rewrite E4. cbn [bind]. rewrite E8. reflexivity.
Qed.

(** ** The choice *)
Lemma argmax_spec {A} (l : list (A * R)) : forall b v, exists l1 k w l2, (b, v) :: l = l1 ++ (k, w) :: l2 /\ argmax b v l = k /\
  Forall (fun x => (snd x < w)%R) l1 /\ Forall (fun x => (snd x <= w)%R) l2.
Proof.
  induction l as [|[k w] l IH]; intros b v; cbn [argmax].
  - exists [], b, v, []. auto.
  - destruct (Rlt_dec v w) as [H|H].
    + destruct (IH k w) as (l1 & k' & w' & l2 & E & Ea & F1 & F2). exists ((b, v) :: l1), k', w', l2. rewrite E. split; [auto|].
      split; [auto|]. split; [|auto]. constructor; auto. simpl. destruct l1 as [|[x y] l1]; injection E as E0 E1 E2.
      * subst. auto.
      * subst x y. inversion F1; subst. simpl in *. lra.
    + destruct (IH b v) as (l1 & k' & w' & l2 & E & Ea & F1 & F2). destruct l1 as [|[x y] l3]; injection E as E0 E1 E2.
      * subst l2. exists [], k', w', ((k, w) :: l). rewrite <- E0, <- E1. split; [auto|]. split; [congruence|].
        split; [auto|]. constructor; [simpl; lra|]. rewrite E1. auto.
      * exists ((b, v) :: (k, w) :: l3), k', w', l2. subst x y l. split; [auto|]. split; [auto|].
        inversion F1; subst x l. split; [|auto]. constructor; [auto|]. constructor; auto. simpl in *. lra.
Qed.

Lemma py_max_key_spec {A} (l : list (A * R)) : l <> [] -> exists l1 k w l2, l = l1 ++ (k, w) :: l2 /\ py_max_key l = Ok k /\
  Forall (fun x => (snd x < w)%R) l1 /\ Forall (fun x => (snd x <= w)%R) l2.
Proof.
  destruct l as [|[b v] l]; [congruence|]. intros _. destruct (argmax_spec l b v) as (l1 & k & w & l2 & E & Ea & H).
  exists l1, k, w, l2. simpl. rewrite Ea. auto.
Qed.

(** conversely the result is determined *)
Lemma argmax_unique {A} (l1 l2 : list (A * R)) k w : forall b v l, (b, v) :: l = l1 ++ (k, w) :: l2 ->
  Forall (fun x => (snd x < w)%R) l1 -> Forall (fun x => (snd x <= w)%R) l2 -> argmax b v l = k.
Proof.
  intros b v l E F1 F2. destruct l1 as [|[b' v'] l1]; injection E as E1 E2 E3.
  - subst. clear F1. induction l2 as [|[x y] l2 IH]; simpl; auto. inversion F2; subst. simpl in *. destruct (Rlt_dec w y); [lra|auto].
  - subst b' v' l. revert b v F1. induction l1 as [|[x y] l1 IH]; intros b v F1; simpl.
    + inversion F1; subst. simpl in *. destruct (Rlt_dec v w); [|lra].
      clear F1 H1 r. induction l2 as [|[x y] l2 IH]; simpl; auto. inversion F2; subst. simpl in *. destruct (Rlt_dec w y); [lra|auto].
    + inversion F1 as [|? ? H1 H2]; subst. inversion H2; subst. destruct (Rlt_dec v y); apply IH; constructor; auto.
Qed.

Lemma py_max_key_unique {A} (l1 l2 : list (A * R)) k w :
  Forall (fun x => (snd x < w)%R) l1 -> Forall (fun x => (snd x <= w)%R) l2 -> py_max_key (l1 ++ (k, w) :: l2) = Ok k.
Proof.
  intros F1 F2. destruct (l1 ++ (k, w) :: l2) as [|[b v] r] eqn:E; [destruct l1; discriminate|]. cbn [py_max_key]. f_equal.
  symmetry in E. eapply argmax_unique; eauto.
Qed.

Lemma gradient_eq n phi obs P : gradient n phi obs P = Im (omega (2 ^ n) phi P (msum a_ent obs)).
Proof.
  unfold gradient. rewrite fold_left_rsum, <- (omega_msum (2 ^ n) phi P a_ent obs). rewrite Rplus_0_l.
  induction obs as [|o obs IH]; [reflexivity|]. cbn [rsum]. rewrite lsum_cons, IH. reflexivity.
Qed.

Lemma greedy_step_spec n table admissible obs U : NoDup (map fst table) -> incl admissible table -> admissible <> [] ->
  exists l1 k P l2, admissible = l1 ++ (k, P) :: l2 /\ In (k, P) table /\
    greedy_step n table admissible obs U = Ok (k, rotosolve n (a_ent P) obs U (String.length (fst k))) /\
    let g P := Rabs (gradient n (qnode_state U) obs (a_ent P)) in
    Forall (fun x => (g (snd x) < g P)%R) l1 /\ Forall (fun x => (g (snd x) <= g P)%R) l2.
Proof.
  intros Hn Hi Hne.
  destruct (py_max_key_spec (abs_gradients n (qnode_state U) obs admissible)) as (l1 & k & w & l2 & E & Em & F1 & F2).
  { unfold abs_gradients. destruct admissible; [congruence|discriminate]. }
  unfold abs_gradients in E. apply map_eq_app in E. destruct E as (m1 & m2 & E & E1 & E2). apply map_eq_cons in E2.
  destruct E2 as ([k' P] & m3 & -> & E2 & E3). injection E2 as -> E2.
  exists m1, k, P, m3. split; [auto|]. assert (Hin : In (k, P) table). { apply Hi. rewrite E. apply in_or_app. right; left; auto. }
  split; [auto|]. split.
  - unfold greedy_step. rewrite Em. cbn [bind]. rewrite (dget_In key_eqb key_eqb_spec table k P Hn Hin). reflexivity.
  - cbn [snd] in E2. intros g. subst w. split.
    + subst l1. rewrite Forall_map in F1. exact F1.
    + subst l2. rewrite Forall_map in F2. exact F2.
Qed.
