(** The complex numbers (Coquelicot's pairs of reals) as a ring with conjugation. *)
From Coq Require Import Reals List Lra Ring.
From Coquelicot Require Import Coquelicot.
From Verif Require Import StarRing.
Import ListNotations.

Lemma C_ring_theory : ring_theory (RtoC 0) (RtoC 1) Cplus Cmult Cminus Copp eq.
Proof.
  constructor; intros; try (apply injective_projections; simpl; ring).
  
Qed.

#[export] Instance CStar : StarRing C.
Proof.
  refine {| k0 := RtoC 0; k1 := RtoC 1; kadd := Cplus; kmul := Cmult; ksub := Cminus; kopp := Copp;
            kconj := Cconj; ki := Ci; k_ring := C_ring_theory |};
  intros; apply injective_projections; simpl; ring.
Defined.

Add Ring Cring : C_ring_theory.

Open Scope C_scope.

(** real and imaginary part as complex numbers *)
Lemma C_split (z : C) : z = RtoC (Re z) + Ci * RtoC (Im z).
Proof. destruct z; apply injective_projections; simpl; unfold Re, Im; simpl; ring. Qed.

Lemma C_ext (z w : C) : Re z = Re w -> Im z = Im w -> z = w.
Proof. intros; apply injective_projections; auto. Qed.

Lemma Re_plus z w : Re (z + w) = (Re z + Re w)%R. Proof. reflexivity. Qed.
Lemma Im_plus z w : Im (z + w) = (Im z + Im w)%R. Proof. reflexivity. Qed.
Lemma Re_minus z w : Re (z - w) = (Re z - Re w)%R. Proof. reflexivity. Qed.
Lemma Im_minus z w : Im (z - w) = (Im z - Im w)%R. Proof. reflexivity. Qed.
Lemma Re_opp z : Re (- z) = (- Re z)%R. Proof. reflexivity. Qed.
Lemma Im_opp z : Im (- z) = (- Im z)%R. Proof. reflexivity. Qed.
Lemma Re_mult z w : Re (z * w) = (Re z * Re w - Im z * Im w)%R. Proof. reflexivity. Qed.
Lemma Im_mult z w : Im (z * w) = (Re z * Im w + Im z * Re w)%R. Proof. reflexivity. Qed.
Lemma Re_conj z : Re (Cconj z) = Re z. Proof. reflexivity. Qed.
Lemma Im_conj z : Im (Cconj z) = (- Im z)%R. Proof. reflexivity. Qed.
Lemma Re_RtoC r : Re (RtoC r) = r. Proof. reflexivity. Qed.
Lemma Im_RtoC r : Im (RtoC r) = 0%R. Proof. reflexivity. Qed.
Lemma Re_Ci : Re Ci = 0%R. Proof. reflexivity. Qed.
Lemma Im_Ci : Im Ci = 1%R. Proof. reflexivity. Qed.

(** sums of reals, as sums over the same index lists *)
Fixpoint rsum {A} (f : A -> R) (l : list A) : R :=
  match l with [] => 0%R | x :: t => (f x + rsum f t)%R end.

Lemma rsum_ext {A} (f g : A -> R) l : (forall x, In x l -> f x = g x) -> rsum f l = rsum g l.
Proof.
  induction l as [|a l IH]; simpl; intros H; auto. rewrite (H a), IH; auto.
Qed.
Lemma rsum_app {A} (f : A -> R) l1 l2 : rsum f (l1 ++ l2) = (rsum f l1 + rsum f l2)%R.
Proof. induction l1; simpl; [ring|rewrite IHl1; ring]. Qed.
Lemma rsum_map {A B} (g : A -> B) (f : B -> R) l : rsum f (map g l) = rsum (fun x => f (g x)) l.
Proof. induction l; simpl; auto. rewrite IHl; auto. Qed.
Lemma rsum_plus {A} (f g : A -> R) l : rsum (fun x => f x + g x)%R l = (rsum f l + rsum g l)%R.
Proof. induction l; simpl; [ring|rewrite IHl; ring]. Qed.
Lemma rsum_scale {A} c (f : A -> R) l : rsum (fun x => c * f x)%R l = (c * rsum f l)%R.
Proof. induction l; simpl; [ring|rewrite IHl; ring]. Qed.
Lemma rsum_nonneg {A} (f : A -> R) l : (forall x, In x l -> 0 <= f x)%R -> (0 <= rsum f l)%R.
Proof.
  induction l as [|a l IH]; simpl; intros H; [lra|].
  assert (0 <= f a)%R by auto. assert (0 <= rsum f l)%R by auto. lra.
Qed.
Lemma rsum_le {A} (f g : A -> R) l : (forall x, In x l -> f x <= g x)%R -> (rsum f l <= rsum g l)%R.
Proof.
  induction l as [|a l IH]; simpl; intros H; [lra|].
  assert (f a <= g a)%R by auto. assert (rsum f l <= rsum g l)%R by auto. lra.
Qed.
Lemma rsum_zero {A} (f : A -> R) l : (forall x, In x l -> 0 <= f x)%R -> rsum f l = 0%R ->
  forall x, In x l -> f x = 0%R.
Proof.
  induction l as [|a l IH]; simpl; intros H E x Hx; [tauto|].
  assert (0 <= f a)%R by auto. assert (0 <= rsum f l)%R by (apply rsum_nonneg; auto).
  destruct Hx as [<-|Hx]; [lra|]. apply IH; auto. lra.
Qed.
Lemma rsum_const0 {A} (l : list A) : rsum (fun _ => 0%R) l = 0%R.
Proof. induction l; simpl; lra. Qed.

Lemma lsum_Re {A} (f : A -> C) l : Re (lsum f l) = rsum (fun x => Re (f x)) l.
Proof. induction l as [|a l IH]; [reflexivity|]. rewrite lsum_cons. simpl rsum. rewrite <- IH. reflexivity. Qed.
Lemma lsum_Im {A} (f : A -> C) l : Im (lsum f l) = rsum (fun x => Im (f x)) l.
Proof. induction l as [|a l IH]; [reflexivity|]. rewrite lsum_cons. simpl rsum. rewrite <- IH. reflexivity. Qed.
Lemma lsum_RtoC {A} (f : A -> R) l : lsum (fun x => RtoC (f x)) l = RtoC (rsum f l).
Proof. apply C_ext; rewrite ?lsum_Re, ?lsum_Im; simpl; [reflexivity|]. apply rsum_const0. Qed.
