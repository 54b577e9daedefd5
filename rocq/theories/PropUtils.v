(** Properties C28-C31: oranssi/utils.py. *)
From Coq Require Import Arith Lia Bool String Ascii Sorted Reals Lra.
From Coquelicot Require Import Coquelicot.
From Verif Require Import Py StarRing Matrix GaussQ Cplx PauliSpec PauliBasis UtilsModel UtilsProofs.
From Coq Require Import List.
Import ListNotations.
Local Open Scope nat_scope.

(** C28. [index_word] gives the base-4 (base-3) digits of the position, so the
    theorem also fixes the order. The sizes 2 and 4 have their own functions in
    the code; they return the same arrays and names. For an N that is not a
    power of two the code rounds the number of qubits down. *)
Theorem C28_su_n_enumeration : forall (K : Type) (SR : StarRing K) n identity,
  exists (ops : list (arr K)) names,
    get_su_n_operators (2 ^ n) identity true = Ok (ops, Some names) /\
    get_su_n_operators (2 ^ n) identity false = Ok (ops, None) /\
    List.length ops = (if identity then 4 else 3) ^ n /\ List.length names = (if identity then 4 else 3) ^ n /\
    StronglySorted (fun a b => String.compare a b = Lt) names /\ NoDup names /\
    forall i, i < (if identity then 4 else 3) ^ n -> exists op,
      nth_error ops i = Some op /\ a_rows op = 2 ^ n /\ a_cols op = 2 ^ n /\
      meq (2 ^ n) (a_ent op) (pword (index_word identity n i)) /\
      nth_error names i = Some (word_name (index_word identity n i)).
Proof. intros K SR n identity. exact (su_n_spec n identity). Qed.
Print Assumptions C28_su_n_enumeration.

Theorem C28_other_sizes : forall (K : Type) (SR : StarRing K) N identity names,
  (0 < N -> get_su_n_operators (K := K) N identity names = get_su_n_operators (2 ^ Nat.log2 N) identity names) /\
  get_su_n_operators (K := K) 0 identity names = Err OverflowError.
Proof.
  intros K SR N identity names. split; [|reflexivity]. intros H.
  rewrite !su_n_eq by (auto; apply pow2_pos). rewrite Nat.log2_pow2 by lia. reflexivity.
Qed.
Print Assumptions C28_other_sizes.

Theorem C28_su_2_and_su_4 : forall (K : Type) (SR : StarRing K) identity names,
  (exists r, get_su_n_operators (K := K) 2 identity names = Ok r /\ su_same (get_su_2_operators identity names) r) /\
  (exists r r', get_su_4_operators (K := K) identity names = Ok r /\
                get_su_n_operators 4 identity names = Ok r' /\ su_same r r').
Proof. intros K SR identity names. split; [apply su_2_is_n1|apply su_4_is_n2]. Qed.
Print Assumptions C28_su_2_and_su_4.

Example C28_names : exists ops, get_su_n_operators (K := gq) 4 false true =
  Ok (ops, Some ["XX"; "XY"; "XZ"; "YX"; "YY"; "YZ"; "ZX"; "ZY"; "ZZ"]%string).
Proof. eexists. reflexivity. Qed.
Example C28_index : index_word true 3 27 = [1; 2; 3] /\ word_name [1; 2; 3] = "XYZ"%string.
Proof. split; reflexivity. Qed.

(** C29 *)
Theorem C29_hermitian_orthogonal_involutions : forall (K : Type) (SR : StarRing K) n identity (ops : list (arr K)) names,
  get_su_n_operators (2 ^ n) identity true = Ok (ops, Some names) ->
  forall i P nm, nth_error ops i = Some P -> nth_error names i = Some nm ->
    hermitian (2 ^ n) (a_ent P) /\ meq (2 ^ n) (mmul (2 ^ n) (a_ent P) (a_ent P)) mid /\
    (nm = word_name (repeat 0 n) -> mtrace (2 ^ n) (a_ent P) = knat (2 ^ n)) /\
    (nm <> word_name (repeat 0 n) -> mtrace (2 ^ n) (a_ent P) = k0) /\
    (forall j Q nm', nth_error ops j = Some Q -> nth_error names j = Some nm' -> nm <> nm' ->
       mtrace (2 ^ n) (mmul (2 ^ n) (a_ent P) (a_ent Q)) = k0).
Proof. exact @su_n_family. Qed.
Print Assumptions C29_hermitian_orthogonal_involutions.

Example C29_case : exists ops names P Q, get_su_n_operators (K := gq) (2 ^ 2) true true = Ok (ops, Some names) /\
  nth_error ops 7 = Some P /\ nth_error names 7 = Some "XZ"%string /\
  nth_error ops 0 = Some Q /\ nth_error names 0 = Some (word_name (repeat 0 2)).
Proof. do 4 eexists. split; [reflexivity|]. repeat split; reflexivity. Qed.

(** C30, for complex matrices *)
Lemma knat_RtoC n : knat (K := C) n = RtoC (INR n).
Proof.
  induction n as [|n IH]; [reflexivity|]. rewrite S_INR. simpl knat. rewrite IH. unfold kadd, k1; simpl.
  apply C_ext; simpl; lra.
Qed.

Theorem C30_pauli_basis : forall n (A : mat C), exists ops,
  get_su_n_operators (2 ^ n) true false = Ok (ops, None) /\
  meq (2 ^ n) A (msum (fun P => mscale (Cdiv (mtrace (2 ^ n) (mmul (2 ^ n) (a_ent P) A)) (RtoC (2 ^ n)%R)) (a_ent P)) ops).
Proof.
  intros n A. destruct (su_n_expansion n A) as (ops & E & H). exists ops. split; [exact E|].
  intros i j Hi Hj. specialize (H i j Hi Hj). unfold mscale, msum in *.
  assert (Hn : RtoC (2 ^ n)%R <> RtoC 0).
  { intros H0. apply RtoC_inj in H0. revert H0. apply pow_nonzero. lra. }
  assert (Hk : knat (K := C) (2 ^ n) = RtoC (2 ^ n)%R).
  { rewrite knat_RtoC. f_equal. rewrite pow_INR. reflexivity. }
  rewrite Hk in H. simpl kmul in *.
  transitivity (Cmult (Cinv (RtoC (2 ^ n)%R)) (Cmult (RtoC (2 ^ n)%R) (A i j))).
  - rewrite Cmult_assoc, Cinv_l by auto. rewrite Cmult_1_l. reflexivity.
  - rewrite H. rewrite <- (lsum_scale_l (SR := CStar)). apply lsum_ext. intros P _. unfold Cdiv. simpl kmul. ring.
Qed.
Print Assumptions C30_pauli_basis.

Example C30_case : exists ops, get_su_n_operators (K := C) (2 ^ 3) true false = Ok (ops, None) /\ List.length ops = 64.
Proof. eexists. split; [reflexivity|reflexivity]. Qed.

(** C31. [frob2 m n M] is the sum of |M_ij|^2. Arrays need not be square. *)
Theorem C31_frobenius_norm : forall M : arr C,
  operator_2_norm M = sqrt (rsum (fun i => rsum (fun j => (Cmod (a_ent M i j) ^ 2)%R) (seq 0 (a_cols M))) (seq 0 (a_rows M))) /\
  (0 <= operator_2_norm M)%R /\
  (operator_2_norm M = 0%R <-> forall i j, i < a_rows M -> j < a_cols M -> a_ent M i j = RtoC 0).
Proof.
  intros M. rewrite operator_2_norm_frob. split; [reflexivity|]. split; [apply sqrt_pos|].
  rewrite <- frob2_zero. split; intros H.
  - apply sqrt_eq_0; auto. apply frob2_nonneg.
  - rewrite H. apply sqrt_0.
Qed.
Print Assumptions C31_frobenius_norm.

Theorem C31_norm_laws : forall m n (M N U V : mat C) (c : C),
  operator_2_norm (mkarr m n (mscale c M)) = (Cmod c * operator_2_norm (mkarr m n M))%R /\
  (operator_2_norm (mkarr m n (madd M N)) <= operator_2_norm (mkarr m n M) + operator_2_norm (mkarr m n N))%R /\
  (meq m (mmul m (madj U) U) mid -> operator_2_norm (mkarr m n (mmul m U M)) = operator_2_norm (mkarr m n M)) /\
  (meq n (mmul n V (madj V)) mid -> operator_2_norm (mkarr m n (mmul n M V)) = operator_2_norm (mkarr m n M)).
Proof.
  intros m n M N U V c. rewrite !operator_2_norm_frob. simpl a_rows; simpl a_cols; simpl a_ent. split; [|split; [|split]].
  - rewrite frob2_scale, sqrt_mult; [|apply pow2_ge_0|apply frob2_nonneg].
    rewrite sqrt_pow2 by apply Cmod_ge_0. reflexivity.
  - apply frob2_triangle.
  - intros H. rewrite frob2_unitary_l; auto.
  - intros H. rewrite frob2_unitary_r; auto. intros i j Hi Hj. rewrite <- (H i j Hi Hj).
    unfold mmul. apply lsum_ext. intros k _. unfold madj. rewrite kconj_conj. reflexivity.
Qed.
Print Assumptions C31_norm_laws.

Example C31_case : meq 2 (mmul 2 (madj (sigma (K := C) 2)) (sigma 2)) mid /\
  operator_2_norm (mkarr 1 2 (fun _ j => match j with O => RtoC 3 | _ => (0, 4)%R end)) = 5%R.
Proof.
  split.
  - rewrite (sigma_herm 2) by lia. apply sigma_sq. lia.
  - rewrite operator_2_norm_frob. unfold frob2. simpl. rewrite Cmod_R, Rabs_pos_eq by lra.
    unfold Cmod. simpl. replace (0 * (0 * 1) + 4 * (4 * 1))%R with (4 * 4)%R by ring. rewrite sqrt_square by lra.
    replace (3 * (3 * 1) + (4 * (4 * 1) + 0) + 0)%R with (5 * 5)%R by ring. apply sqrt_square. lra.
Qed.
