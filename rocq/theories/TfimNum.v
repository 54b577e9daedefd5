(** Eigenvalues of integer matrices: an eigenvalue is a root of every polynomial that kills the
    matrix, checked on lists of integers. *)
From Coq Require Import ZArith Arith Lia Bool Reals Lra Ring.
From Coquelicot Require Import Coquelicot.
From Verif Require Import Py StarRing Matrix Cplx PropFlowRate.
From Coq Require Import List.
Import ListNotations.
Local Open Scope nat_scope.
Local Open Scope list_scope.

Definition zc (a : Z) : C := RtoC (IZR a).
Lemma zc_add a b : zc (a + b) = Cplus (zc a) (zc b).
Proof. unfold zc. rewrite plus_IZR. apply C_ext; simpl; ring. Qed.
Lemma zc_mul a b : zc (a * b) = Cmult (zc a) (zc b).
Proof. unfold zc. rewrite mult_IZR. apply C_ext; simpl; ring. Qed.

(** integer vectors of any length *)
Fixpoint vadd (a b : list Z) : list Z :=
  match a, b with [], _ => b | _, [] => a | x :: a', y :: b' => (x + y)%Z :: vadd a' b' end.
Definition vscale (c : Z) (a : list Z) : list Z := map (Z.mul c) a.
(** sum over the entries r_i times row i *)
Fixpoint lincomb (r : list Z) (rows : list (list Z)) : list Z :=
  match r, rows with a :: r', row :: rows' => vadd (vscale a row) (lincomb r' rows') | _, _ => [] end.
Definition unit_row (i : nat) : list Z := repeat 0%Z i ++ [1%Z].
(** row i of the polynomial with coefficients p, lowest first, of the matrix *)
Definition poly_row (T : list (list Z)) (i : nat) (p : list Z) : list Z :=
  fold_right (fun a r => vadd (vscale a (unit_row i)) (lincomb r T)) [] p.
Definition kills (T : list (list Z)) (p : list Z) : bool :=
  forallb (fun i => forallb (Z.eqb 0) (poly_row T i p)) (seq 0 (List.length T)).
Definition peval (p : list Z) (m : R) : R := fold_right (fun a r => (IZR a + m * r)%R) 0%R p.
Fixpoint zdot (a b : list Z) : Z := match a, b with x :: a', y :: b' => (x * y + zdot a' b')%Z | _, _ => 0%Z end.
Definition mulvec (T : list (list Z)) (x : list Z) : list Z := map (fun row => zdot row x) T.

(** the entry-wise sum with a complex vector, entries counted from k *)
Fixpoint dot (k : nat) (a : list Z) (v : nat -> C) : C :=
  match a with [] => RtoC 0 | x :: a' => Cplus (Cmult (zc x) (v k)) (dot (S k) a' v) end.

Lemma dot_vadd a : forall k b v, dot k (vadd a b) v = Cplus (dot k a v) (dot k b v).
Proof.
  induction a as [|x a IH]; intros k b v; [cbn; ring|]. destruct b as [|y b]; [cbn; ring|]. cbn [vadd dot]. rewrite IH, zc_add. ring.
Qed.
Lemma dot_vscale c a : forall k v, dot k (vscale c a) v = Cmult (zc c) (dot k a v).
Proof. induction a as [|x a IH]; intros k v; [cbn; ring|]. cbn [vscale map dot] in *. unfold vscale in IH. rewrite IH, zc_mul. ring. Qed.
Lemma dot_unit i : forall k v, dot k (unit_row i) v = v (k + i).
Proof.
  unfold unit_row. induction i as [|i IH]; intros k v; cbn [repeat app dot].
  - rewrite Nat.add_0_r. unfold zc. ring.
  - rewrite IH. replace (k + S i) with (S k + i) by lia. unfold zc. ring.
Qed.
Lemma dot_zero a : forallb (Z.eqb 0) a = true -> forall k v, dot k a v = RtoC 0.
Proof.
  induction a as [|x a IH]; intros H k v; [reflexivity|]. cbn [forallb] in H. apply andb_true_iff in H. destruct H as [H1 H2]. apply Z.eqb_eq in H1. subst x. cbn [dot]. rewrite IH by exact H2. unfold zc. ring.
Qed.
Lemma dot_lincomb (m : R) v r : forall k rows, List.length r <= List.length rows -> (forall i row, nth_error rows i = Some row -> dot 0 row v = Cmult (RtoC m) (v (k + i))) ->
  dot 0 (lincomb r rows) v = Cmult (RtoC m) (dot k r v).
Proof.
  induction r as [|a r IH]; intros k rows Hl H; [cbn; ring|]. destruct rows as [|row rows]; [simpl in Hl; lia|]. cbn [lincomb dot]. rewrite dot_vadd, dot_vscale.
  rewrite (IH (S k) rows); [|simpl in Hl; lia|intros i row' E; rewrite (H (S i) row' E); f_equal; f_equal; lia]. pose proof (H 0 row eq_refl) as H0. rewrite Nat.add_0_r in H0. rewrite H0. ring.
Qed.
Lemma vadd_length a : forall b d, List.length a <= d -> List.length b <= d -> List.length (vadd a b) <= d.
Proof. induction a as [|x a IH]; intros [|y b] d Ha Hb; cbn [vadd] in *; try assumption. cbn in *. destruct d; [lia|]. specialize (IH b d). lia. Qed.
Lemma lincomb_length d r : forall rows, Forall (fun row => List.length row <= d) rows -> List.length (lincomb r rows) <= d.
Proof.
  induction r as [|a r IH]; intros rows H; [simpl; lia|]. destruct H as [|row rows H1 H2]; [simpl; lia|]. cbn [lincomb]. apply vadd_length; [unfold vscale; rewrite map_length; exact H1|apply IH; exact H2].
Qed.
Lemma poly_length T i p : Forall (fun row => List.length row <= List.length T) T -> i < List.length T -> List.length (poly_row T i p) <= List.length T.
Proof.
  intros H Hi. induction p as [|a p IH]; [simpl; lia|]. cbn [poly_row fold_right]. apply vadd_length; [unfold vscale, unit_row; rewrite map_length, app_length, repeat_length; simpl; lia|apply lincomb_length; exact H].
Qed.

Section Table.
Variable T : list (list Z).
Let d := List.length T.
Hypothesis square : Forall (fun row => List.length row = d) T.
Variable H : mat C.
Hypothesis entries : forall i j, i < d -> j < d -> H i j = zc (nth j (nth i T []) 0%Z).

Lemma row_dot (v : nat -> C) : forall row k, lsum (SR := CStar) (fun j => Cmult (zc (nth j row 0%Z)) (v (k + j))) (seq 0 (List.length row)) = dot k row v.
Proof.
  induction row as [|a row IH]; intros k; [reflexivity|]. cbn [List.length seq dot]. rewrite lsum_cons, <- seq_shift, (lsum_map (SR := CStar)), <- (IH (S k)). cbn [nth kadd CStar]. rewrite Nat.add_0_r. f_equal.
  apply lsum_ext. intros j _. rewrite Nat.add_succ_r. reflexivity.
Qed.
Lemma row_sum i (v : nat -> C) : i < d -> lsum (SR := CStar) (fun j => Cmult (H i j) (v j)) (seq 0 d) = dot 0 (nth i T []) v.
Proof.
  intros Hi. assert (L : List.length (nth i T []) = d) by (rewrite Forall_forall in square; apply square, nth_In; exact Hi).
  rewrite <- row_dot, L. apply lsum_ext. intros j Hj. apply in_seq in Hj. rewrite entries by lia. reflexivity.
Qed.

Lemma eigen_poly (m : R) v p : (forall i, i < d -> lsum (SR := CStar) (fun j => Cmult (H i j) (v j)) (seq 0 d) = Cmult (RtoC m) (v i)) ->
  forall i, i < d -> dot 0 (poly_row T i p) v = Cmult (RtoC (peval p m)) (v i).
Proof.
  intros Hv i Hi. induction p as [|a p IH]; [cbn; ring|]. cbn [poly_row peval fold_right]. rewrite dot_vadd, dot_vscale, dot_unit. fold (poly_row T i p).
  rewrite (dot_lincomb m v (poly_row T i p) 0 T).
  - rewrite IH. cbn [Nat.add]. unfold zc. apply C_ext; simpl; unfold peval; ring.
  - apply poly_length; [|exact Hi]. eapply Forall_impl; [|exact square]. intros row E. fold d. cbv beta in E. lia.
  - intros j row E. assert (Hj : j < d) by (apply nth_error_Some; congruence). rewrite <- (nth_error_nth T j [] E), <- row_sum by exact Hj. apply Hv. exact Hj.
Qed.

Lemma eigen_root (m : R) p : kills T p = true -> eigenvalue d H m -> peval p m = 0%R.
Proof.
  intros K (v & (i & Hi & Nv) & Hv). pose proof (eigen_poly m v p Hv i Hi) as E. unfold kills in K. rewrite forallb_forall in K.
  rewrite dot_zero in E by (apply K, in_seq; fold d; lia). destruct (Req_dec (peval p m) 0) as [Z|N]; [exact Z|exfalso]. apply Nv.
  destruct (v i) as [a b]. apply (f_equal (fun z => (Re z, Im z))) in E. cbn in E. injection E as E1 E2. assert (a = 0)%R by (apply (Rmult_eq_reg_l (peval p m)); lra). assert (b = 0)%R by (apply (Rmult_eq_reg_l (peval p m)); lra). subst. reflexivity.
Qed.

(** a combination of four integer vectors *)
Definition combo (r1 r2 r3 r4 : R) (A B E D : list Z) (i : nat) : R :=
  (r1 * IZR (nth i A 0%Z) + r2 * IZR (nth i B 0%Z) + r3 * IZR (nth i E 0%Z) + r4 * IZR (nth i D 0%Z))%R.
Lemma zdot_dot row : forall k x, List.length row = List.length x -> dot k row (fun i => zc (nth (i - k) x 0%Z)) = zc (zdot row x).
Proof.
  induction row as [|a row IH]; intros k [|b x] L; try discriminate; [reflexivity|]. cbn [dot zdot]. rewrite Nat.sub_diag. cbn [nth]. rewrite zc_add, zc_mul. f_equal. injection L as L.
  rewrite <- (IH (S k) x L). clear IH. assert (Q : forall l j, (k < j) -> dot j l (fun i => zc (nth (i - k) (b :: x) 0%Z)) = dot j l (fun i => zc (nth (i - S k) x 0%Z))).
  { induction l as [|c l IHl]; intros j Hj; [reflexivity|]. cbn [dot]. rewrite IHl by lia. replace (j - k) with (S (j - S k)) by lia. reflexivity. }
  apply Q. lia.
Qed.
Lemma mul_row i x : i < d -> List.length x = d -> dot 0 (nth i T []) (fun j => zc (nth j x 0%Z)) = zc (nth i (mulvec T x) 0%Z).
Proof.
  intros Hi L. unfold mulvec. rewrite (nth_indep _ 0%Z ((fun row => zdot row x) [])) by (rewrite map_length; exact Hi). rewrite (map_nth (fun row => zdot row x)).
  rewrite <- (zdot_dot _ 0 x) by (rewrite L; rewrite Forall_forall in square; apply square, nth_In; exact Hi).
  assert (Q : forall l k, dot k l (fun j => zc (nth j x 0%Z)) = dot k l (fun j => zc (nth (j - 0) x 0%Z))) by (induction l as [|c l IHl]; intros k; [reflexivity|]; cbn [dot]; rewrite IHl, Nat.sub_0_r; reflexivity). apply Q.
Qed.
Lemma dot_combo r1 r2 r3 r4 A B E D : forall l k, dot k l (fun j => RtoC (combo r1 r2 r3 r4 A B E D j)) =
  Cplus (Cplus (Cplus (Cmult (RtoC r1) (dot k l (fun j => zc (nth j A 0%Z)))) (Cmult (RtoC r2) (dot k l (fun j => zc (nth j B 0%Z))))) (Cmult (RtoC r3) (dot k l (fun j => zc (nth j E 0%Z))))) (Cmult (RtoC r4) (dot k l (fun j => zc (nth j D 0%Z)))).
Proof. induction l as [|c l IH]; intros k; cbn [dot]; [ring|]. rewrite IH. unfold combo, zc. apply C_ext; simpl; ring. Qed.
Lemma mul_combo i r1 r2 r3 r4 A B E D : i < d -> List.length A = d -> List.length B = d -> List.length E = d -> List.length D = d ->
  lsum (SR := CStar) (fun j => Cmult (H i j) (RtoC (combo r1 r2 r3 r4 A B E D j))) (seq 0 d) = RtoC (combo r1 r2 r3 r4 (mulvec T A) (mulvec T B) (mulvec T E) (mulvec T D) i).
Proof. intros Hi LA LB LE LD. rewrite row_sum, dot_combo, !mul_row by assumption. unfold combo, zc. apply C_ext; simpl; ring. Qed.
End Table.
