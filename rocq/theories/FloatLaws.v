(** Laws of double precision arithmetic used for C105: products commute, signs
    can be pulled out up to the sign of zero, multiplication by one is exact. *)
From Coq Require Import ZArith Bool Floats.SpecFloat Lia Setoid Morphisms.
From Verif Require Import FloatPauliModel.

Arguments fmul : simpl never. Arguments fadd : simpl never. Arguments fsub : simpl never.

(** equal up to the sign of zero; nan is equal to nan here *)
Definition fsim (x y : float) : Prop := x = y \/ exists s t, x = S754_zero s /\ y = S754_zero t.

Global Instance fsim_equiv : Equivalence fsim.
Proof.
  split.
  - intros x. left. reflexivity.
  - intros x y [->|(s & t & -> & ->)]; [left; reflexivity|right; eauto].
  - intros x y z [->|(s & t & -> & ->)] [<-|(s' & t' & E & ->)]; [left; reflexivity|subst; right; eauto|right; eauto|right; eauto].
Qed.

Lemma fmul_comm x y : fmul x y = fmul y x.
Proof.
  unfold fmul. destruct x as [s|s| |s m e], y as [t|t| |t k f]; simpl; rewrite ?(xorb_comm t s); try reflexivity.
  rewrite (Pos.mul_comm k m), (Z.add_comm f e). reflexivity.
Qed.
Lemma fadd_comm x y : fadd x y = fadd y x.
Proof.
  unfold fadd. destruct x as [s|s| |s m e], y as [t|t| |t k f]; simpl; try reflexivity.
  - destruct s, t; reflexivity.
  - destruct s, t; reflexivity.
  - rewrite (Z.min_comm f e), Z.add_comm. reflexivity.
Qed.
Lemma fsub_add x y : fsub x y = fadd x (SFopp y).
Proof.
  unfold fsub, fadd. destruct x as [s|s| |s m e], y as [t|t| |t k f]; simpl; try reflexivity.
  unfold Z.sub. replace (- cond_Zopp t (Z.pos (fst (shl_align k f (Z.min e f)))))%Z with (cond_Zopp (negb t) (Z.pos (fst (shl_align k f (Z.min e f))))); [reflexivity|].
  destruct t; simpl; reflexivity.
Qed.

Lemma round_aux_opp s m e l : binary_round_aux 53 1024 (negb s) m e l = SFopp (binary_round_aux 53 1024 s m e l).
Proof.
  unfold binary_round_aux. destruct (shr_fexp 53 1024 m e l) as [r e1]. destruct (shr_fexp 53 1024 _ e1 loc_Exact) as [r2 e2].
  destruct (shr_m r2); [reflexivity| |reflexivity]. destruct (Z.leb e2 _); reflexivity.
Qed.
Lemma normalize_opp m e : fsim (binary_normalize 53 1024 (- m) e false) (SFopp (binary_normalize 53 1024 m e false)).
Proof.
  destruct m; simpl; [right; eauto|left|left]; unfold binary_round; destruct (shl_align _ _ _);
    [apply (round_aux_opp false)|apply (round_aux_opp true)].
Qed.

Lemma fopp_opp x : SFopp (SFopp x) = x.
Proof. destruct x; simpl; rewrite ?negb_involutive; reflexivity. Qed.
Global Instance fopp_proper : Proper (fsim ==> fsim) SFopp.
Proof. intros x y [->|(s & t & -> & ->)]; [reflexivity|right; simpl; eauto]. Qed.

Lemma fmul_opp_l x y : fmul (SFopp x) y = SFopp (fmul x y).
Proof.
  unfold fmul. destruct x as [s|s| |s m e], y as [t|t| |t k f]; simpl; try reflexivity; rewrite ?negb_xorb_l; try reflexivity.
  rewrite <- negb_xorb_l. apply round_aux_opp.
Qed.
Lemma fmul_opp_r x y : fmul x (SFopp y) = SFopp (fmul x y).
Proof. rewrite (fmul_comm x), fmul_opp_l, fmul_comm. reflexivity. Qed.
Lemma fadd_opp x y : fsim (fadd (SFopp x) (SFopp y)) (SFopp (fadd x y)).
Proof.
  unfold fadd. destruct x as [s|s| |s m e], y as [t|t| |t k f]; simpl; try reflexivity.
  - right. destruct s, t; simpl; eauto.
  - destruct s, t; reflexivity.
  - rewrite <- normalize_opp. replace (cond_Zopp (negb s) (Z.pos (fst (shl_align m e (Z.min e f)))) + cond_Zopp (negb t) (Z.pos (fst (shl_align k f (Z.min e f)))))%Z
      with (- (cond_Zopp s (Z.pos (fst (shl_align m e (Z.min e f)))) + cond_Zopp t (Z.pos (fst (shl_align k f (Z.min e f))))))%Z; [reflexivity|].
    destruct s, t; simpl cond_Zopp; lia.
Qed.

Global Instance fmul_proper : Proper (fsim ==> fsim ==> fsim) fmul.
Proof.
  assert (L : forall x x' y, fsim x x' -> fsim (fmul x y) (fmul x' y)).
  { intros x x' y [->|(s & t & -> & ->)]; [reflexivity|]. unfold fmul. destruct y; simpl; try reflexivity; right; eauto. }
  intros x x' Hx y y' Hy. rewrite (L _ _ y Hx). rewrite (fmul_comm x' y), (fmul_comm x' y'). apply L; exact Hy.
Qed.
Global Instance fadd_proper : Proper (fsim ==> fsim ==> fsim) fadd.
Proof.
  assert (L : forall x x' y, fsim x x' -> fsim (fadd x y) (fadd x' y)).
  { intros x x' y [->|(s & t & -> & ->)]; [reflexivity|]. unfold fadd. destruct y as [r|r| |r m e]; simpl; try reflexivity.
    destruct s, t, r; simpl; try reflexivity; right; eauto. }
  intros x x' Hx y y' Hy. rewrite (L _ _ y Hx). rewrite (fadd_comm x' y), (fadd_comm x' y'). apply L; exact Hy.
Qed.
Global Instance fsub_proper : Proper (fsim ==> fsim ==> fsim) fsub.
Proof. intros x x' Hx y y' Hy. rewrite !fsub_add. rewrite Hx, Hy. reflexivity. Qed.

(** ** Multiplication by one *)

Lemma digits_pos m : (0 < Z.pos (digits2_pos m))%Z. Proof. lia. Qed.

Lemma shr_even p m : (iter_pos shr_1 p {| shr_m := Z.pos (Pos.iter xO m p); shr_r := false; shr_s := false |}) = {| shr_m := Z.pos m; shr_r := false; shr_s := false |}.
Proof.
  revert m. induction p as [p IH|p IH|]; intros m; simpl; [rewrite IH; apply IH|rewrite IH; apply IH|reflexivity].
Qed.

Lemma fmul_1_l x : valid_binary 53 1024 x = true -> fmul f1 x = x.
Proof.
  destruct x as [s|s| |s m e]; [destruct s; reflexivity|destruct s; reflexivity|reflexivity|]. intros V. unfold valid_binary, bounded, canonical_mantissa in V.
  apply andb_prop in V as [V1 V2]. apply Zeq_bool_eq in V1. unfold fmul, f1. unfold SFmul.
  replace (xorb false s) with s by (destruct s; reflexivity).
  replace (4503599627370496 * m)%positive with (Pos.iter xO m 52) by reflexivity.
  unfold binary_round_aux, shr_fexp.
  assert (D : Z.pos (digits2_pos (Pos.iter xO m 52)) = (Z.pos (digits2_pos m) + 52)%Z).
  { simpl Pos.iter. cbn [digits2_pos]. lia. }
  change (Zdigits2 (Z.pos (Pos.iter xO m 52))) with (Z.pos (digits2_pos (Pos.iter xO m 52))). rewrite D.
  replace (Z.pos (digits2_pos m) + 52 + (-52 + e))%Z with (Z.pos (digits2_pos m) + e)%Z by lia. rewrite V1.
  replace (e - (-52 + e))%Z with 52%Z by lia. change (shr (shr_record_of_loc (Z.pos (Pos.iter xO m 52)) loc_Exact) (-52 + e) 52) with (iter_pos shr_1 52 {| shr_m := Z.pos (Pos.iter xO m 52); shr_r := false; shr_s := false |}, (-52 + e + 52)%Z). rewrite shr_even. cbv beta iota zeta.
  cbn [shr_m loc_of_shr_record round_nearest_even].
  replace (-52 + e + 52)%Z with e by lia. change (Zdigits2 (Z.pos m)) with (Z.pos (digits2_pos m)). rewrite V1, Z.sub_diag.
  cbn [shr shr_record_of_loc shr_m]. rewrite V2. reflexivity.
Qed.

(** ** Complex numbers *)

Definition csim (x y : fcomplex) : Prop := fsim (fst x) (fst y) /\ fsim (snd x) (snd y).
Definition cneg (x : fcomplex) : fcomplex := (SFopp (fst x), SFopp (snd x)).

Global Instance csim_equiv : Equivalence csim.
Proof.
  split.
  - intros x. split; reflexivity.
  - intros x y [H1 H2]. split; symmetry; auto.
  - intros x y z [H1 H2] [H3 H4]. split; [rewrite H1|rewrite H2]; auto.
Qed.
Global Instance cneg_proper : Proper (csim ==> csim) cneg.
Proof. intros x y [H1 H2]. split; simpl; [rewrite H1|rewrite H2]; reflexivity. Qed.
Global Instance cmul_proper : Proper (csim ==> csim ==> csim) cmul.
Proof. intros x x' [H1 H2] y y' [H3 H4]. split; simpl; rewrite H1, H2, H3, H4; reflexivity. Qed.
Lemma cmul_comm x y : csim (cmul x y) (cmul y x).
Proof.
  split; simpl; [rewrite (fmul_comm (fst x)), (fmul_comm (snd x)); reflexivity|].
  rewrite (fmul_comm (fst x)), (fmul_comm (snd x)), fadd_comm. reflexivity.
Qed.
Lemma cmul_neg_l x y : csim (cmul (cneg x) y) (cneg (cmul x y)).
Proof.
  split; simpl; rewrite !fmul_opp_l; [|apply fadd_opp]. rewrite !fsub_add. apply fadd_opp.
Qed.
Lemma cmul_neg_r x y : csim (cmul x (cneg y)) (cneg (cmul x y)).
Proof. rewrite cmul_comm, cmul_neg_l, cmul_comm. reflexivity. Qed.
Lemma cneg_neg x : csim (cneg (cneg x)) x.
Proof. split; simpl; rewrite fopp_opp; reflexivity. Qed.

(** a finite double, as the machine represents it *)
Definition finite_double (x : float) : Prop :=
  match x with S754_zero _ => True | S754_finite _ m e => bounded 53 1024 m e = true | _ => False end.
Definition finite_complex (x : fcomplex) : Prop := finite_double (fst x) /\ finite_double (snd x).

Lemma finite_valid x : finite_double x -> valid_binary 53 1024 x = true.
Proof. destruct x; simpl; auto; contradiction. Qed.

Lemma fmul_zero s x : finite_double x -> fsim (fmul (S754_zero s) x) f0.
Proof. unfold fmul. destruct x; simpl; try contradiction; intros _; right; unfold f0; eauto. Qed.
Lemma fadd_zero_l x : fsim (fadd f0 x) x.
Proof. unfold fadd, f0. destruct x as [s|s| |s m e]; simpl; try reflexivity. destruct s; right; eauto. Qed.
Lemma fadd_zero_r x : fsim (fadd x f0) x.
Proof. rewrite fadd_comm. apply fadd_zero_l. Qed.
Lemma fopp_zero s : fsim (SFopp (S754_zero s)) f0. Proof. right. unfold f0. simpl. eauto. Qed.

(** the product with the imaginary unit *)
Lemma cmul_i x : finite_complex x -> csim (cmul (f0, f1) x) (SFopp (snd x), fst x).
Proof.
  intros [H1 H2]. split; simpl; rewrite !fmul_1_l by (apply finite_valid; auto).
  - rewrite fsub_add. rewrite (fmul_zero false _ H1). apply fadd_zero_l.
  - rewrite (fmul_zero false _ H2). apply fadd_zero_l.
Qed.
Lemma ci_anti x y : finite_complex x -> finite_complex y -> csim (cmul (cmul (f0, f1) x) y) (cmul (cmul (f0, f1) y) x).
Proof.
  intros Hx Hy. rewrite (cmul_i x Hx), (cmul_i y Hy). destruct x as [a b], y as [c d]. split; simpl.
  - rewrite !fmul_opp_l, !fsub_add. rewrite (fmul_comm a d), (fmul_comm b c), fadd_comm. reflexivity.
  - rewrite !fmul_opp_l. rewrite (fmul_comm b d), (fmul_comm a c). reflexivity.
Qed.

Lemma ilevi_cases g h : (1 <= g <= 3)%nat -> (1 <= h <= 3)%nat -> g <> h ->
  let i := n_ilevi doubles (Z.of_nat g) (Z.of_nat h) (Z.of_nat (6 - g - h)) in
  let j := n_ilevi doubles (Z.of_nat h) (Z.of_nat g) (Z.of_nat (6 - g - h)) in
  csim i (f0, f1) /\ csim j (cneg (f0, f1)) \/ csim i (cneg (f0, f1)) /\ csim j (f0, f1).
Proof.
  intros Hg Hh N. assert (G : g = 1%nat \/ g = 2%nat \/ g = 3%nat) by lia. assert (H : h = 1%nat \/ h = 2%nat \/ h = 3%nat) by lia.
  destruct G as [-> | [-> | ->]]; destruct H as [-> | [-> | ->]]; try lia; vm_compute;
    (left; split; split; first [left; reflexivity|right; do 2 eexists; split; reflexivity]) || (right; split; split; first [left; reflexivity|right; do 2 eexists; split; reflexivity]).
Qed.

Lemma doubles_anti g h x y : (1 <= g <= 3)%nat -> (1 <= h <= 3)%nat -> g <> h -> finite_complex x -> finite_complex y ->
  csim (n_mul doubles (n_mul doubles (n_ilevi doubles (Z.of_nat h) (Z.of_nat g) (Z.of_nat (6 - g - h))) y) x)
       (cneg (n_mul doubles (n_mul doubles (n_ilevi doubles (Z.of_nat g) (Z.of_nat h) (Z.of_nat (6 - g - h))) x) y)).
Proof.
  intros Hg Hh N Fx Fy. cbn [n_mul doubles]. destruct (ilevi_cases g h Hg Hh N) as [[-> ->]|[-> ->]].
  - rewrite !cmul_neg_l. rewrite (ci_anti x y Fx Fy). reflexivity.
  - rewrite !cmul_neg_l, cneg_neg. rewrite (ci_anti x y Fx Fy). reflexivity.
Qed.

(** ** Comparison and difference *)

Definition is_zero (x : float) : bool := match x with S754_zero _ => true | _ => false end.
Definition is_nan (x : float) : bool := match x with S754_nan => true | _ => false end.
Definition is_finite (x : float) : bool := match x with S754_zero _ | S754_finite _ _ _ => true | _ => false end.

Lemma feqb_proper x x' y y' : fsim x x' -> fsim y y' -> feqb x y = feqb x' y'.
Proof.
  intros [->|(s & t & -> & ->)] [->|(s' & t' & -> & ->)]; reflexivity.
Qed.
Lemma feqb_refl x : feqb x x = negb (is_nan x).
Proof.
  destruct x as [s|s| |s m e]; unfold feqb, SFeqb; simpl; try reflexivity; [destruct s; reflexivity|].
  rewrite Z.compare_refl, Pos.compare_cont_refl. destruct s; reflexivity.
Qed.
Lemma feqb_opp x : feqb (SFopp x) x = is_zero x.
Proof. destruct x as [s|s| |s m e]; unfold feqb, SFeqb; simpl; try reflexivity; destruct s; reflexivity. Qed.

Lemma fsub_self x : is_finite x = true -> fsim (fsub x x) f0.
Proof.
  destruct x as [s|s| |s m e]; simpl; try discriminate; intros _; unfold fsub; simpl.
  - right. unfold f0. destruct s; simpl; eauto.
  - rewrite Z.sub_diag. simpl. reflexivity.
Qed.
Lemma fsub_opp x : fsub x (SFopp x) = fadd x x.
Proof. rewrite fsub_add, fopp_opp. reflexivity. Qed.
