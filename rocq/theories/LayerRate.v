(** How much a sequence of exponentials of small anti-Hermitian matrices changes an
    expectation value: the first-order change, and a bound on the rest. *)
From Coq Require Import Arith Lia Bool String Reals Lra Ring Setoid Morphisms.
From Coquelicot Require Import Coquelicot.
From Verif Require Import Py StarRing Matrix Cplx Expm MDeriv UtilsModel CircuitModel CircuitProofs CircuitProofs2 LayerModel LayerProofs FlowProofs FlowRate.
From Coq Require Import List.
Import ListNotations.
Local Open Scope R_scope.

(** ** The derivative of the exponential at any point *)
Lemma is_derive_shift (f : R -> R) t l : is_derive f 0 l -> is_derive (fun s => f (s - t)) t l.
Proof.
  intros H. eapply is_derive_extR; [intros; reflexivity| |apply (is_derive_comp f (fun s => s - t) t l 1)].
  - unfold scal. simpl. unfold mult. simpl. ring.
  - replace (t - t) with 0 by ring. exact H.
  - auto_derive; [exact I|ring].
Qed.
Lemma expm_der d A t : mder d (fun s => expm d (mscale (RtoC s) A)) t (mmul d A (expm d (mscale (RtoC t) A))).
Proof.
  assert (H : mder d (fun s => expm d (mscale (RtoC (s - t)) A)) t A).
  { intros i j Hi Hj. destruct (expm_der0 d A i j Hi Hj) as [H1 H2].
    split; [apply (is_derive_shift (fun s => Re (expm d (mscale (RtoC s) A) i j)) t _ H1)|apply (is_derive_shift (fun s => Im (expm d (mscale (RtoC s) A) i j)) t _ H2)]. }
  eapply mder_ext; [|reflexivity|apply (mder_rmul d (expm d (mscale (RtoC t) A)) _ t _ H)].
  intros s. cbv beta. symmetry. rewrite <- expm_add; [|rewrite !mmul_scale_l, !mmul_scale_r; intros i j _ _; unfold mscale; cbn [kmul CStar]; ring].
  apply expm_proper. intros i j _ _. unfold madd, mscale. cbn [kmul kadd CStar]. unfold Rminus. rewrite RtoC_plus, RtoC_opp. ring.
Qed.

Section Rate.
Variable d : nat.
Notation rip := (rip d). Notation nrm := (nrm d). Notation ev := (ev d). Notation bounded := (bounded d).

Definition flow (K : mat C) (x : nat -> C) (t : R) : nat -> C := mv d (expm d (mscale (RtoC t) K)) x.

Lemma flow_0 K x : veq d (flow K x 0) x.
Proof.
  intros i Hi. unfold flow. rewrite (mv_ext d _ mid x x) with (i := i); [apply mv_id; exact Hi| |apply veq_refl|exact Hi].
  rewrite (expm_proper d _ mzero), expm_zero; [reflexivity|]. intros a b _ _. unfold mscale, mzero. cbn [kmul k0 CStar]. ring.
Qed.
Lemma flow_der K x t i : (i < d)%nat -> cder (fun s => flow K x s i) t (mv d K (flow K x t) i).
Proof.
  intros Hi. unfold flow at 1. eapply cder_ext; [intros; reflexivity| |unfold mv; apply (cder_lsum (fun j s => Cmult (expm d (mscale (RtoC s) K) i j) (x j)) (fun j => Cmult (mmul d K (expm d (mscale (RtoC t) K)) i j) (x j)))].
  - unfold flow. rewrite <- mv_mul. reflexivity.
  - intros j Hj. apply in_seq in Hj. eapply cder_ext; [intros; reflexivity| |apply cder_mult; [apply (expm_der d K t i j Hi); lia|apply cder_const]]. cbn beta. ring.
Qed.
Lemma mv_der H (f : R -> nat -> C) t f' i : (forall j, (j < d)%nat -> cder (fun s => f s j) t (f' j)) -> cder (fun s => mv d H (f s) i) t (mv d H f' i).
Proof.
  intros Hf. unfold mv. apply (cder_lsum (fun j s => Cmult (H i j) (f s j))). intros j Hj. apply in_seq in Hj.
  eapply cder_ext; [intros; reflexivity| |apply cder_mult; [apply cder_const|apply Hf; lia]]. cbn beta. ring.
Qed.
Lemma rip_der (f g : R -> nat -> C) t f' g' : (forall i, (i < d)%nat -> cder (fun s => f s i) t (f' i)) -> (forall i, (i < d)%nat -> cder (fun s => g s i) t (g' i)) ->
  is_derive (fun s => rip (f s) (g s)) t (rip f' (g t) + rip (f t) g').
Proof.
  intros Hf Hg.
  assert (Q : cder (fun s => ip d (f s) (g s)) t (Cplus (ip d f' (g t)) (ip d (f t) g'))).
  { apply (cder_ext (fun e => lsum (SR := CStar) (fun i => Cmult (Cconj (f e i)) (g e i)) (seq 0 d)) _ _
      (lsum (SR := CStar) (fun i => Cplus (Cmult (Cconj (f' i)) (g t i)) (Cmult (Cconj (f t i)) (g' i))) (seq 0 d))); [intros; reflexivity|unfold ip; apply (lsum_add (SR := CStar))|].
    apply (cder_lsum (fun i e => Cmult (Cconj (f e i)) (g e i))). intros i Hi. apply in_seq in Hi. apply cder_mult; [apply cder_conj, Hf; lia|apply Hg; lia]. }
  destruct Q as [Q _]. eapply is_derive_extR; [intros; reflexivity| |exact Q]. unfold FlowRate.rip. apply Re_plus.
Qed.

Lemma rip_anti K x y : anti d K -> rip (mv d K x) y = - rip x (mv d K y).
Proof.
  intros HK. unfold FlowRate.rip. rewrite (ip_adj d K x y).
  rewrite (ip_ext d (mv d (madj K) x) (fun i => Cmult (RtoC (-1)) (mv d K x i)) y y); [|intros i Hi; rewrite <- mv_scale_mat; apply (mv_ext d _ _ x x HK); [apply veq_refl|exact Hi]|apply veq_refl].
  rewrite ip_scale_l. destruct (ip d (mv d K x) y). simpl. ring.
Qed.

Lemma flow_norm K x t : anti d K -> rip (flow K x t) (flow K x t) = rip x x.
Proof.
  intros HK. pose proof (anti_expm d t K HK) as [H1 _]. unfold FlowRate.rip, flow. f_equal. rewrite (ip_adj d (expm d (mscale (RtoC t) K))). apply ip_ext; [|apply veq_refl].
  intros i Hi. rewrite <- mv_mul, (mv_ext d _ mid x x H1 (veq_refl d x) i Hi). apply mv_id. exact Hi.
Qed.

(** a point of the mean value theorem *)
Lemma mean_value (f f' : R -> R) t : 0 <= t -> (forall s, is_derive f s (f' s)) -> exists c, 0 <= c <= t /\ f t - f 0 = f' c * t.
Proof.
  intros Ht Hf. destruct (MVT_gen f 0 t f') as (c & Hc & E).
  - intros s _. apply Hf.
  - intros s _. apply continuity_pt_filterlim. apply (ex_derive_continuous (K := R_AbsRing) (V := R_NormedModule) f s). exists (f' s). apply Hf.
  - rewrite Rmin_left, Rmax_right in Hc by lra. exists c. split; [exact Hc|]. rewrite E. ring.
Qed.

(** the flow moves a unit vector by at most k t *)
Lemma flow_near K k x t : anti d K -> bounded k K -> 0 <= k -> rip x x = 1 -> 0 <= t -> nrm (vlin 1 (flow K x t) (-1) x) <= k * t.
Proof.
  intros HK Hb k0 N Ht. set (y := vlin 1 (flow K x t) (-1) x).
  destruct (mean_value (fun s => rip y (flow K x s)) (fun s => rip y (mv d K (flow K x s))) t Ht) as (c & Hc & E).
  { intros s. eapply is_derive_extR; [intros; reflexivity| |apply (rip_der (fun _ => y) (fun s => flow K x s) s (fun _ => RtoC 0) (mv d K (flow K x s)))].
    - assert (Z : rip (fun _ => RtoC 0) (flow K x s) = 0). { unfold FlowRate.rip. rewrite (ip_ext d _ (fun _ => Cmult (RtoC 0) (RtoC 0)) (flow K x s) (flow K x s)) by (try apply veq_refl; intros i _; cbv beta; apply C_ext; simpl; ring). rewrite ip_scale_l. destruct (ip _ _ _). simpl. ring. } match goal with |- ?a = ?b => change (@eq R a b) end. rewrite Z. ring.
    - intros i _. apply cder_const.
    - intros i Hi. apply flow_der. exact Hi. }
  cbv beta in E. rewrite (rip_ext d y y _ _ (veq_refl d y) (flow_0 K x)) in E.
  assert (E2 : rip y y = rip y (flow K x t) - rip y x). { unfold y at 2. rewrite rip_lin. ring. }
  rewrite E in E2. pose proof (bounded_le d k K y (flow K x c) Hb) as B.
  assert (n1 : nrm (flow K x c) = 1) by (unfold FlowRate.nrm; rewrite flow_norm, N by exact HK; apply sqrt_1). rewrite n1 in B.
  pose proof (nrm_sq d y) as S. pose proof (nrm_pos d y) as P. apply Rabs_le_between in B.
  destruct (Req_dec (nrm y) 0) as [Z|Z]; [rewrite Z; apply Rmult_le_pos; lra|]. assert (P' : 0 < nrm y) by lra. apply (Rmult_le_reg_l (nrm y)); [exact P'|]. rewrite S, E2.
  assert (rip y (mv d K (flow K x c)) * t <= k * (nrm y * 1) * t) by (apply Rmult_le_compat_r; lra). lra.
Qed.

(** the speed at which the expectation value of H changes, at near states *)
Lemma speed_near K k H L x y D : bounded k K -> 0 <= k -> bounded L H -> 0 <= L -> rip x x = 1 -> rip y y = 1 -> nrm (vlin 1 y (-1) x) <= D ->
  Rabs (rip (mv d K y) (mv d H y) - rip (mv d K x) (mv d H x)) <= 2 * k * L * D.
Proof.
  intros Hk k0 HL L0 Nx Ny HD. set (e := vlin 1 y (-1) x) in *. pose proof (nrm_pos d e) as Pe.
  assert (nx : nrm x = 1) by (unfold FlowRate.nrm; rewrite Nx; apply sqrt_1). assert (ny : nrm y = 1) by (unfold FlowRate.nrm; rewrite Ny; apply sqrt_1).
  assert (Y : veq d y (vlin 1 x 1 e)). { intros i _. unfold e, vlin. destruct (x i), (y i). apply C_ext; simpl; ring. }
  assert (E : rip (mv d K y) (mv d H y) - rip (mv d K x) (mv d H x) = rip (mv d K e) (mv d H y) + rip (mv d K x) (mv d H e)).
  { rewrite (rip_ext d (mv d K y) (vlin 1 (mv d K x) 1 (mv d K e)) (mv d H y) (mv d H y)); [|eapply veq_trans; [apply mv_veq; exact Y|apply mv_lin]|apply veq_refl]. rewrite rip_lin_l.
    rewrite (rip_ext d (mv d K x) (mv d K x) (mv d H y) (vlin 1 (mv d H x) 1 (mv d H e)) (veq_refl _ _)) by (eapply veq_trans; [apply mv_veq; exact Y|apply mv_lin]). rewrite rip_lin. ring. }
  rewrite E. eapply Rle_trans; [apply Rabs_triang|]. pose proof (bounded_le d L H (mv d K e) y HL) as P1. pose proof (bounded_le d L H (mv d K x) e HL) as P2. rewrite ny in P1.
  pose proof (Hk e) as B1. pose proof (Hk x) as B2. rewrite nx in B2. pose proof (nrm_pos d (mv d K x)). pose proof (nrm_pos d (mv d K e)).
  assert (K1 : k * nrm e <= k * D) by (apply Rmult_le_compat_l; lra).
  assert (L * (nrm (mv d K e) * 1) <= L * (k * D)) by (apply Rmult_le_compat_l; lra).
  assert (nrm (mv d K x) * nrm e <= k * D) by (eapply Rle_trans; [apply Rmult_le_compat_r; [exact Pe|exact B2]|lra]).
  assert (L * (nrm (mv d K x) * nrm e) <= L * (k * D)) by (apply Rmult_le_compat_l; lra). lra.
Qed.

Lemma flow_change K k H L x t : anti d K -> bounded k K -> 0 <= k -> hermitian d H -> bounded L H -> 0 <= L -> rip x x = 1 -> 0 <= t ->
  Rabs (ev H (flow K x t) - ev H x - 2 * t * rip (mv d K x) (mv d H x)) <= 2 * (k * k) * L * (t * t).
Proof.
  intros HK Hk k0 Hh HL L0 N Ht. set (r := rip (mv d K x) (mv d H x)).
  assert (Der : forall s, is_derive (fun s => ev H (flow K x s)) s (2 * rip (mv d K (flow K x s)) (mv d H (flow K x s)))).
  { intros s. eapply is_derive_extR; [intros; reflexivity| |apply (rip_der (fun s => flow K x s) (fun s => mv d H (flow K x s)) s (mv d K (flow K x s)) (mv d H (mv d K (flow K x s))))].
    - match goal with |- ?a = ?b => change (@eq R a b) end. rewrite <- (rip_mv d H _ _ Hh). rewrite (rip_sym d (mv d H _)). ring.
    - intros i Hi. apply flow_der. exact Hi.
    - intros i Hi. apply mv_der. intros j Hj. apply flow_der. exact Hj. }
  assert (Sp : forall s, 0 <= s -> Rabs (2 * rip (mv d K (flow K x s)) (mv d H (flow K x s)) - 2 * r) <= 4 * (k * k) * L * s).
  { intros s Hs. pose proof (flow_near K k x s HK Hk k0 N Hs) as Q. assert (N' : rip (flow K x s) (flow K x s) = 1) by (rewrite flow_norm; assumption).
    pose proof (speed_near K k H L x (flow K x s) _ Hk k0 HL L0 N N' Q) as Q2. replace (2 * rip (mv d K (flow K x s)) (mv d H (flow K x s)) - 2 * r) with (2 * (rip (mv d K (flow K x s)) (mv d H (flow K x s)) - r)) by ring.
    rewrite Rabs_mult, (Rabs_pos_eq 2) by lra. fold r in Q2. lra. }
  assert (One : forall sg, sg = 1 \/ sg = -1 -> sg * (ev H (flow K x t) - ev H x - 2 * t * r) <= 2 * (k * k) * L * (t * t)).
  { intros sg Hsg. destruct (mean_value (fun s => sg * (ev H (flow K x s) - 2 * s * r) - 2 * (k * k) * L * (s * s))
      (fun s => sg * (2 * rip (mv d K (flow K x s)) (mv d H (flow K x s)) - 2 * r) - 4 * (k * k) * L * s) t Ht) as (c & Hc & E).
    - intros s. pose proof (Der s) as D1. eapply is_derive_extR; [intros; reflexivity| |apply (is_derive_minus (V := R_NormedModule) (fun s => sg * (ev H (flow K x s) - 2 * s * r)) (fun s => 2 * (k * k) * L * (s * s)) s (sg * (2 * rip (mv d K (flow K x s)) (mv d H (flow K x s)) - 2 * r)) (4 * (k * k) * L * s))].
      + unfold minus, plus, opp. simpl. ring.
      + apply (is_derive_scal (fun s => ev H (flow K x s) - 2 * s * r)). apply (is_derive_minus (V := R_NormedModule)); [exact D1|]. auto_derive; [exact I|ring].
      + auto_derive; [exact I|ring].
    - cbv beta in E. assert (E0 : ev H (flow K x 0) = ev H x). { unfold FlowRate.ev. apply rip_ext; [apply flow_0|apply mv_veq, flow_0]. } rewrite E0 in E.
      pose proof (Sp c ltac:(lra)) as S. apply Rabs_le_between in S.
      assert (S2 : sg * (2 * rip (mv d K (flow K x c)) (mv d H (flow K x c)) - 2 * r) - 4 * (k * k) * L * c <= 0) by (destruct Hsg as [-> | ->]; lra).
      assert ((sg * (2 * rip (mv d K (flow K x c)) (mv d H (flow K x c)) - 2 * r) - 4 * (k * k) * L * c) * t <= 0 * t) by (apply Rmult_le_compat_r; assumption). lra. }
  pose proof (One 1 (or_introl eq_refl)) as O1. pose proof (One (-1) (or_intror eq_refl)) as O2. fold r. apply Rabs_le. split; lra.
Qed.

(** a sequence of exponentials *)
Definition flows (t : R) (l : list (mat C)) (x : nat -> C) : nat -> C := fold_left (fun y K => flow K y t) l x.

Lemma flows_change H L t : hermitian d H -> bounded L H -> 0 <= L -> 0 <= t -> forall l ks, Forall2 (fun K k => anti d K /\ bounded k K /\ 0 <= k) l ks ->
  forall x0, rip x0 x0 = 1 -> forall y a, rip y y = 1 -> nrm (vlin 1 y (-1) x0) <= t * a ->
  Rabs (ev H (flows t l y) - ev H y - 2 * t * rsum (fun K => rip (mv d K x0) (mv d H x0)) l) <= 2 * L * (t * t) * (rsum (fun k => k) ks * rsum (fun k => k) ks + 2 * a * rsum (fun k => k) ks).
Proof.
  intros Hh HL L0 Ht l ks Hl x0 N0. induction Hl as [|K k l ks (HK & Hk & k0) Hl IH]; intros y a N Hd.
  - cbn [flows fold_left rsum]. unfold flows. cbn [fold_left]. replace (ev H y - ev H y - 2 * t * 0) with 0 by ring. rewrite Rabs_R0. right. ring.
  - assert (N' : rip (flow K y t) (flow K y t) = 1) by (rewrite flow_norm; assumption).
    assert (Hd' : nrm (vlin 1 (flow K y t) (-1) x0) <= t * (a + k)).
    { rewrite (nrm_ext d _ (vlin 1 (vlin 1 (flow K y t) (-1) y) 1 (vlin 1 y (-1) x0))).
      - eapply Rle_trans; [apply nrm_lin|]. rewrite Rabs_R1. pose proof (flow_near K k y t HK Hk k0 N Ht). lra.
      - intros i _. unfold vlin. destruct (flow K y t i), (y i), (x0 i). apply C_ext; simpl; ring. }
    specialize (IH (flow K y t) (a + k) N' Hd'). pose proof (flow_change K k H L y t HK Hk k0 Hh HL L0 N Ht) as P1.
    pose proof (speed_near K k H L x0 y _ Hk k0 HL L0 N0 N Hd) as P2.
    change (flows t (K :: l) y) with (flows t l (flow K y t)). cbn [rsum].
    set (S := rsum (fun k => k) ks) in *. set (T := rsum _ l) in *. set (r0 := rip (mv d K x0) (mv d H x0)) in *. set (r := rip (mv d K y) (mv d H y)) in *.
    replace (ev H (flows t l (flow K y t)) - ev H y - 2 * t * (r0 + T)) with ((ev H (flows t l (flow K y t)) - ev H (flow K y t) - 2 * t * T) + ((ev H (flow K y t) - ev H y - 2 * t * r) + 2 * t * (r - r0))) by ring.
    eapply Rle_trans; [apply Rabs_triang|]. eapply Rle_trans; [apply Rplus_le_compat; [exact IH|eapply Rle_trans; [apply Rabs_triang|apply Rplus_le_compat; [exact P1|]]]|].
    + rewrite Rabs_mult, (Rabs_pos_eq (2 * t)) by lra. apply Rmult_le_compat_l; [lra|exact P2].
    + right. ring.
Qed.
End Rate.
