(** Properties C106 and C107: the layers conserve the Pauli strings that commute with the observables. *)
From Coq Require Import ZArith Arith Lia Bool String Sorted Reals Lra Ring Setoid Morphisms Classical.
From Coquelicot Require Import Coquelicot.
From Verif Require Import Py StarRing Matrix Cplx PauliSpec Bits PauliBasis Expm MDeriv UtilsModel CircuitModel CircuitProofs CircuitProofs2 AlgebraModel AlgebraProofs CommProofs
  LayerModel LayerProofs LayerProofs2 OptimizerModel OptProofs GreedyModel RotoProofs GreedyProofs FlowModel FlowProofs FlowProofs2 FlowMany FlowRate LayerRate ApproxModel ApproxProofs
  PropAlgebra PropLayers PropGreedy PropOptArgs PropOptRun PropFlow PropApprox PropFlowRate PropLayerState PropOptions PropShiftRun PropLayerRate PropSpectrum PropConserved PropMany.
From Verif Require Import AlgebraProofs UtilsProofs PropZassenhaus PropEigenstate EigenstateModel.
From Coq Require Import List.
Import ListNotations.
Local Open Scope nat_scope.
Local Open Scope list_scope.

(** ** Specification *)

(** the Pauli string with the letters v (0 for I, 1 to 3 for X, Y, Z), which commutes with the
    observables *)
Definition conserved_string (n : nat) (obs : list (qop C)) (v : list nat) : Prop :=
  List.length v = n /\ Forall (fun g => g <= 3) v /\ commutes n obs (pword v).

(** a greedy layer at any time after its construction: only the previous direction changes *)
Definition at_direction (l : greedy_layer) (prev : option key) : greedy_layer := mkgreedy (gr_n l) (gr_table l) (gr_obs l) prev.

(** ** Matrices that commute or anticommute *)
Lemma expm_commutes d A S : meq d (mmul d A S) (mmul d S A) -> meq d (mmul d (expm d A) S) (mmul d S (expm d A)).
Proof.
  intros H.
  assert (HE : forall k, meq d (mmul d (eterm d A k) S) (mmul d S (eterm d A k))).
  { intros k. unfold eterm. rewrite mmul_scale_l, mmul_scale_r, (mpow_comm d A S k H). reflexivity. }
  intros i j Hi Hj. eapply cser_unique with (a := fun k => mmul (SR := CStar) d (eterm d A k) S i j).
  - unfold mmul. apply (cser_lsum (fun b k => kmul (eterm d A k i b) (S b j)) (fun b => kmul (expm d A i b) (S b j))). intros b Hb. apply in_seq in Hb. cbn [kmul CStar].
    eapply cser_ext with (a := fun k => Cmult (S b j) (eterm d A k i b)); [intros; ring|]. rewrite (Cmult_comm (expm d A i b)). apply cser_scal. apply expm_cser; lia.
  - eapply cser_ext; [intros k; symmetry; apply (HE k i j Hi Hj)|]. unfold mmul.
    apply (cser_lsum (fun b k => kmul (S i b) (eterm d A k b j)) (fun b => kmul (S i b) (expm d A b j))). intros b Hb. apply in_seq in Hb. cbn [kmul CStar]. apply cser_scal. apply expm_cser; lia.
Qed.

Lemma gphase_sign g h : g <= 3 -> h <= 3 -> exists s, (s = RtoC 1 \/ s = RtoC (-1)) /\ gphase (SR := CStar) g h = Cmult s (gphase (SR := CStar) h g).
Proof.
  intros Hg Hh. assert (D : forall s, s = RtoC 1 \/ s = RtoC (-1) -> gphase (SR := CStar) g h = Cmult s (gphase (SR := CStar) h g) -> exists s, (s = RtoC 1 \/ s = RtoC (-1)) /\ gphase (SR := CStar) g h = Cmult s (gphase (SR := CStar) h g)) by (intros s; exists s; auto).
  destruct g as [|[|[|[|g]]]]; [| | | |lia]; (destruct h as [|[|[|[|h]]]]; [| | | |lia]); ((apply (D (RtoC 1)); [left; reflexivity|apply C_ext; cbn; ring]) || (apply (D (RtoC (-1))); [right; reflexivity|apply C_ext; cbn; ring])).
Qed.
Lemma sign_prod (f g : nat -> C) l : (forall p, In p l -> exists s, (s = RtoC 1 \/ s = RtoC (-1)) /\ f p = Cmult s (g p)) ->
  exists s, (s = RtoC 1 \/ s = RtoC (-1)) /\ kprod (SR := CStar) f l = Cmult s (kprod (SR := CStar) g l).
Proof.
  induction l as [|p l IH]; intros H; [exists (RtoC 1); split; [left; reflexivity|cbn; ring]|]. destruct (H p (or_introl eq_refl)) as (s & Hs & E). destruct (IH (fun q Hq => H q (or_intror Hq))) as (t & Ht & F).
  exists (Cmult s t). split; [destruct Hs as [-> | ->], Ht as [-> | ->]; [left|right|right|left]; apply C_ext; simpl; ring|]. unfold kprod in *. cbn [fold_right]. cbn [kmul CStar] in *. rewrite E, F. ring.
Qed.
(** two Pauli strings commute or anticommute *)
Lemma words_sign n v w : List.length v = n -> List.length w = n -> Forall (fun g => g <= 3) v -> Forall (fun g => g <= 3) w ->
  exists s, (s = RtoC 1 \/ s = RtoC (-1)) /\ meq (2 ^ n) (mmul (K := C) (2 ^ n) (pword v) (pword w)) (mscale s (mmul (2 ^ n) (pword w) (pword v))).
Proof.
  intros Hv Hw Fv Fw. destruct (sign_prod (fun p => gphase (SR := CStar) (nth p v 0) (nth p w 0)) (fun p => gphase (SR := CStar) (nth p w 0) (nth p v 0)) (seq 0 n)) as (s & Hs & E).
  { intros p Hp. apply in_seq in Hp. rewrite Forall_forall in Fv, Fw. apply gphase_sign; [apply Fv|apply Fw]; apply nth_In; lia. }
  exists s. split; [exact Hs|]. rewrite !pword_mul by assumption. rewrite E. intros i j _ _. unfold mscale. cbn [kmul CStar].
  rewrite (map_ext (fun p => gidx (nth p w 0) (nth p v 0)) (fun p => gidx (nth p v 0) (nth p w 0))) by (intros p; apply gidx_comm). ring.
Qed.

(** eigenvectors of opposite eigenvalues are orthogonal *)
Lemma opposite_orthogonal d S a x w : hermitian d S -> a <> 0%R -> veq d (mv d S x) (fun i => Cmult (RtoC a) (x i)) -> veq d (mv d S w) (fun i => Cmult (RtoC (- a)) (w i)) -> ip d x w = RtoC 0.
Proof.
  intros Hh Ha Hx Hw. pose proof (ip_hermitian d S x w Hh) as E. rewrite (ip_ext d _ _ _ _ (veq_refl d x) Hw), (ip_ext d _ _ _ _ Hx (veq_refl d w)), ip_scale_r, ip_scale_l in E.
  destruct (ip d x w) as [p q]. apply (f_equal (fun z => (Re z, Im z))) in E. simpl in E. injection E as E1 E2.
  assert ((2 * a) * p = 0)%R by lra. assert ((2 * a) * q = 0)%R by lra. apply C_ext; simpl; (apply (Rmult_eq_reg_l (2 * a)); [lra|lra]).
Qed.

(** along a direction that anticommutes with S the gradient vanishes *)
Lemma gradient_vanishes d S a phi P O : hermitian d S -> a <> 0%R -> has_value d S a phi -> meq d (mmul d S O) (mmul d O S) -> meq d (mmul d S P) (mscale (SR := CStar) (RtoC (-1)) (mmul d P S)) ->
  omega d phi P O = RtoC 0.
Proof.
  intros Hh Ha Hv HO HP. assert (Hx : veq d (mv d S phi) (fun i => Cmult (RtoC a) (phi i))) by exact Hv.
  assert (KO : forall w b, veq d (mv d S w) (fun i => Cmult (RtoC b) (w i)) -> veq d (mv d S (mv d O w)) (fun i => Cmult (RtoC b) (mv d O w i))).
  { intros w b Hw i Hi. rewrite <- mv_mul, (mv_ext d _ _ w w HO (veq_refl d w) i Hi), mv_mul, (mv_veq d O _ _ Hw i Hi), mv_scale. reflexivity. }
  assert (KP : forall w b, veq d (mv d S w) (fun i => Cmult (RtoC b) (w i)) -> veq d (mv d S (mv d P w)) (fun i => Cmult (RtoC (- b)) (mv d P w i))).
  { intros w b Hw i Hi. rewrite <- mv_mul, (mv_ext d _ _ w w HP (veq_refl d w) i Hi), mv_scale_mat, mv_mul, (mv_veq d P _ _ Hw i Hi), mv_scale. apply C_ext; simpl; ring. }
  unfold omega. rewrite quad_ip, (ip_ext d phi phi _ (fun i => Cminus (mv d P (mv d O phi) i) (mv d O (mv d P phi) i)) (veq_refl d phi)) by (intros i _; rewrite mv_sub, !mv_mul; reflexivity).
  rewrite ip_sub_r, (opposite_orthogonal d S a phi (mv d P (mv d O phi)) Hh Ha Hx), (opposite_orthogonal d S a phi (mv d O (mv d P phi)) Hh Ha Hx); [apply C_ext; simpl; ring|apply KO, KP, Hx|apply KP, KO, Hx].
Qed.

(** exponentials of what commutes with S *)
Lemma value_conserved d S a A U : (0 < d) -> meq d (mmul d A S) (mmul d S A) -> has_value d S a (qnode_state U) -> has_value d S a (qnode_state (mmul d (expm d A) U)).
Proof.
  intros Hd HA Hv. assert (Hx : veq d (mv d S (qnode_state U)) (fun i => Cmult (RtoC a) (qnode_state U i))) by exact Hv. pose proof (expm_commutes d A S HA) as HE.
  intros i Hi. change (mv d S (qnode_state (mmul d (expm d A) U)) i = Cmult (RtoC a) (qnode_state (mmul d (expm d A) U) i)).
  rewrite state_mmul. rewrite <- mv_mul, <- (mv_ext d _ _ _ _ HE (veq_refl d (qnode_state U)) i Hi), mv_mul, (mv_veq d _ _ _ Hx i Hi), mv_scale. reflexivity.
Qed.

Lemma gens_conserve d c S a l : (0 < d) -> Forall (fun A => meq d (mmul d A S) (mmul d S A)) l -> forall U, has_value d S a (qnode_state U) -> has_value d S a (qnode_state (apply_gens d c l U)).
Proof.
  intros Hd. induction 1 as [|A l HA _ IH]; intros U Hv; [exact Hv|]. rewrite apply_gens_cons. apply IH. apply value_conserved; [exact Hd| |exact Hv]. rewrite mmul_scale_l, mmul_scale_r, HA. reflexivity.
Qed.

(** ** The generators of the layers *)

(** P is the matrix of a Pauli string *)
Definition is_word (n : nat) (P : mat C) : Prop := exists w, List.length w = n /\ Forall (fun g => g <= 3) w /\ meq (2 ^ n) P (pword w).

Lemma word_commutes n v P : List.length v = n -> Forall (fun g => g <= 3) v -> is_word n P ->
  meq (2 ^ n) (mmul (K := C) (2 ^ n) (pword v) P) (mmul (2 ^ n) P (pword v)) \/ meq (2 ^ n) (mmul (K := C) (2 ^ n) (pword v) P) (mscale (SR := CStar) (RtoC (-1)) (mmul (2 ^ n) P (pword v))).
Proof.
  intros Hl Hv (w & Lw & Fw & E). destruct (words_sign n v w Hl Lw Hv Fw) as (s & [-> | ->] & M); [left|right]; rewrite E, M; [|reflexivity]. intros i j _ _. unfold mscale. cbn [kmul CStar]. ring.
Qed.

Lemma string_value n v a U : List.length v = n -> Forall (fun g => g <= 3) v -> unitary2 (2 ^ n) U -> has_value (2 ^ n) (pword v) a (qnode_state U) -> a <> 0%R.
Proof.
  intros Hl Hv HU Ha ->. assert (Hx : veq (2 ^ n) (mv (2 ^ n) (pword v) (qnode_state U)) (fun i => Cmult (RtoC 0) (qnode_state U i))) by exact Ha.
  pose proof (state_unit n U HU) as N. assert (Z : veq (2 ^ n) (qnode_state U) (fun _ => Cmult (RtoC 0) (RtoC 0))).
  { intros i Hi. rewrite <- (mv_id (2 ^ n) (qnode_state U) i Hi). assert (Q : meq (2 ^ n) (mmul (K := C) (2 ^ n) (pword v) (pword v)) mid) by (rewrite <- Hl; apply pword_sq; exact Hv).
    rewrite <- (mv_ext (2 ^ n) _ _ _ _ Q (veq_refl _ (qnode_state U)) i Hi), mv_mul, (mv_veq (2 ^ n) (pword v) _ _ Hx i Hi), mv_scale. apply C_ext; simpl; ring. }
  unfold rip in N. rewrite (ip_ext _ _ _ _ _ Z Z), ip_scale_r in N. destruct (ip _ _ _). simpl in N. lra.
Qed.

Lemma gen_commutes n v a phi O P : List.length v = n -> Forall (fun g => g <= 3) v -> a <> 0%R -> has_value (2 ^ n) (pword v) a phi -> meq (2 ^ n) (mmul (K := C) (2 ^ n) (pword v) O) (mmul (2 ^ n) O (pword v)) -> is_word n (a_ent P) ->
  meq (2 ^ n) (mmul (2 ^ n) (gen (2 ^ n) phi O P) (pword v)) (mmul (2 ^ n) (pword v) (gen (2 ^ n) phi O P)).
Proof.
  intros Hl Hv Ha Hx HO HP. assert (Hh : hermitian (2 ^ n) (pword (K := C) v)) by (unfold hermitian; rewrite <- Hl; apply pword_herm; exact Hv). unfold gen. rewrite mmul_scale_l, mmul_scale_r.
  destruct (word_commutes n v (a_ent P) Hl Hv HP) as [M|M]; [rewrite M; reflexivity|]. rewrite (gradient_vanishes (2 ^ n) (pword v) a phi (a_ent P) O Hh Ha Hx HO M). intros i j _ _. unfold mscale. cbn [kmul CStar]. ring.
Qed.

Lemma msum_commutes d S {X} (f : X -> mat C) l : (forall x, In x l -> meq d (mmul d (f x) S) (mmul d S (f x))) -> meq d (mmul d (msum f l) S) (mmul d S (msum f l)).
Proof.
  induction l as [|x l IH]; intros H.
  - intros i j _ _. unfold mmul, msum. rewrite !(lsum_zero (SR := CStar)); [reflexivity| |]; intros; rewrite lsum_nil; cbn [kmul k0 CStar]; ring.
  - assert (E : meq d (msum f (x :: l)) (madd (f x) (msum f l))) by (intros p q _ _; unfold msum, madd; rewrite lsum_cons; reflexivity).
    rewrite E, mmul_add_l, mmul_add_r, (H x (or_introl eq_refl)), (IH (fun y Hy => H y (or_intror Hy))). reflexivity.
Qed.

Lemma all_gens_commute n v a trot phi Os groups : List.length v = n -> Forall (fun g => g <= 3) v -> a <> 0%R -> has_value (2 ^ n) (pword v) a phi ->
  Forall (fun O => meq (2 ^ n) (mmul (K := C) (2 ^ n) (pword v) (a_ent O)) (mmul (2 ^ n) (a_ent O) (pword v))) Os -> Forall (fun P => is_word n (a_ent P)) (List.concat groups) ->
  Forall (fun A => meq (2 ^ n) (mmul (2 ^ n) A (pword v)) (mmul (2 ^ n) (pword v) A)) (all_gens (2 ^ n) trot phi Os groups).
Proof.
  intros Hl Hv Ha Hx HO HP. apply Forall_forall. intros A HA. unfold all_gens in HA. apply in_flat_map in HA. destruct HA as (O & HinO & HA). apply in_flat_map in HA. destruct HA as (g & Hg & HA).
  rewrite Forall_forall in HO, HP. assert (G : forall P, In P g -> meq (2 ^ n) (mmul (2 ^ n) (gen (2 ^ n) phi (a_ent O) P) (pword v)) (mmul (2 ^ n) (pword v) (gen (2 ^ n) phi (a_ent O) P))).
  { intros P HinP. apply (gen_commutes n v a); auto. apply HP. apply in_concat. exists g. auto. }
  unfold gens in HA. destruct trot; [apply in_map_iff in HA; destruct HA as (P & <- & HinP); apply G; exact HinP|]. destruct HA as [<-|[]]. apply msum_commutes. exact G.
Qed.

Lemma layer_words n obs eta o asked Ps : rate_layer n obs eta o asked -> direction_set n asked Ps -> Forall (fun P => is_word n (a_ent P)) Ps.
Proof.
  intros Hr (ks & _ & Hk & HP). assert (W : forall d q, asked d q -> In d (su2_list ++ su4_list ++ su8_list) /\ qubit_tuple n (String.length d) q).
  { destruct Hr as [locality eta0 stride ds check trot l (_ & Hl & _ & Hd) _ _|ds eta0 check trot l _ Hd _ _]; intros d q [H1 H2].
    - assert (In d (if locality =? 1 then su2_list else su4_list)) as Hin by (destruct ds; auto). destruct Hl as [-> | ->]; cbn [Nat.eqb] in Hin.
      + split; [apply in_or_app; left; exact Hin|]. destruct Hin as [<-|[<-|[<-|[]]]]; exact H2.
      + split; [apply in_or_app; right; apply in_or_app; left; exact Hin|]. assert (String.length d = 2) as -> by (simpl in Hin; intuition; subst; reflexivity). exact H2.
    - split; [|exact H2]. apply Hd in H1. apply in_app_or in H1. destruct H1; apply in_or_app; [left; assumption|right; apply in_or_app; left; assumption]. }
  assert (K : forall d q, In (d, q) ks -> asked d q) by (intros d q; apply Hk). clear Hk. induction HP as [|[d q] P ks Ps HQ _ IH]; constructor.
  - destruct (W d q (K d q (or_introl eq_refl))) as [W1 W2]. apply (word_exists n d q P W1 W2 HQ).
  - apply IH. intros d' q' Hin. apply K. right. exact Hin.
Qed.

(** ** C106 *)

(** One call of a LocalLieAlgebraLayer or a CustomDirectionLieAlgebraLayer, with any
    directions, learning rate and options. *)
Theorem C106_layer : forall n obs eta o asked v a x commute U p, Forall (fits n) obs -> Forall hermitian_obs obs -> rate_layer n obs eta o asked -> conserved_string n obs v ->
  svd_correct (or_svd x) -> unitary2 (2 ^ n) U -> has_value (2 ^ n) (pword v) a (fun i => U i 0) ->
  exists V, obj_call x commute o U p = Ok (V, p, o) /\ unitary2 (2 ^ n) V /\ has_value (2 ^ n) (pword v) a (fun i => V i 0).
Proof.
  intros n obs eta o asked v a x commute U p Hf Hh Hr (Hl & Hv & Hc) Hs HU Hx. destruct (rate_call n obs eta o asked Hf Hh Hr) as (Os & groups & trot & _ & HE & HO & HG & HD & Hcall).
  destruct (Hcall x commute U p Hs) as (V & E & M). exists V. split; [exact E|].
  assert (D0 : 0 < 2 ^ n) by apply pow2_pos. pose proof (string_value n v a U Hl Hv HU Hx) as Ha.
  assert (HC : Forall (fun O => meq (2 ^ n) (mmul (K := C) (2 ^ n) (pword v) (a_ent O)) (mmul (2 ^ n) (a_ent O) (pword v))) Os).
  { clear - HE Hc. induction HE as [|o F obs Os HF _ IH]; constructor; [apply (Hc o F (or_introl eq_refl) HF)|apply IH; intros o' F' Hin; apply Hc; right; exact Hin]. }
  split.
  - eapply unitary2_proper; [symmetry; exact M|]. apply apply_gens_unitary; [|exact HU]. apply all_gens_anti; [exact HO|]. eapply Forall_impl; [|exact HG]. intros g Hg. eapply Forall_impl; [|exact Hg]. cbv beta. tauto.
  - assert (Q : has_value (2 ^ n) (pword v) a (qnode_state (apply_gens (2 ^ n) (RtoC (- eta / 2 ^ n)) (all_gens (2 ^ n) trot (qnode_state U) Os groups) U))).
    { apply gens_conserve; [exact D0| |exact Hx]. apply (all_gens_commute n v a); auto. eapply layer_words; eauto. }
    set (W := apply_gens _ _ _ _) in *. assert (EV : veq (2 ^ n) (fun i => V i 0) (qnode_state W)) by (intros i Hi; apply M; assumption).
    intros i Hi. change (mv (2 ^ n) (pword v) (fun i => V i 0) i = Cmult (RtoC a) (V i 0)). rewrite (mv_veq _ _ _ _ EV i Hi), (EV i Hi). exact (Q i Hi).
Qed.
Print Assumptions C106_layer.

Lemma layer_call n obs v a eta asked w i : Forall (fits n) obs -> Forall hermitian_obs obs -> conserved_string n obs v -> (exists o, nth_error w i = Some o /\ rate_layer n obs eta o asked) ->
  forall x commute w' U p V p' w'', svd_correct (or_svd x) -> nth_error w' i = nth_error w i -> unitary2 (2 ^ n) U -> has_value (2 ^ n) (pword v) a (qnode_state U) -> store_call x commute i w' U p = Ok (V, p', w'') ->
  (forall j, nth_error w'' j = nth_error w' j) /\ unitary2 (2 ^ n) V /\ has_value (2 ^ n) (pword v) a (qnode_state V).
Proof.
  intros Hf Hh Hc (o & Eo & Hr) x commute w' U p V p' w'' Hs Ew HU Ha E. destruct (C106_layer n obs eta o asked v a x commute U p Hf Hh Hr Hc Hs HU Ha) as (V1 & E1 & E2 & E3).
  unfold store_call, list_get in E. rewrite Ew, Eo in E. cbn [bind] in E. rewrite E1 in E. cbn [bind] in E. injection E as <- <- <-. split; [|split; [exact E2|exact E3]].
  intros j. destruct (Nat.eq_dec j i) as [->|N]; [|apply replace_at_other; exact N]. rewrite Ew, Eo. apply (replace_at_here w' i o o). congruence.
Qed.

(** A run of approximate_lie_optimizer with such layers, without perturbations: all its states
    are eigenvectors of the string for the same eigenvalue. *)
Theorem C106_run : forall x eigh random n gates obs w ls etas asked p0 kw r cs ss os us ps zs v a U,
  Forall (unitary_gate n) gates -> Forall (fits n) obs -> Forall hermitian_obs obs -> svd_correct (or_svd x) -> ap_accepts (AList (map Some ls)) kw -> the_flag kw "perturb" = false ->
  (forall i, In i ls -> exists o, nth_error w i = Some o /\ rate_layer n obs (etas i) o (asked i)) ->
  approx_optimizer x eigh random n gates obs w RetState (AList (map Some ls)) p0 kw = Ok r -> ap_result kw r cs ss os us ps zs ->
  conserved_string n obs v -> circuit_unitary n gates = Ok U -> has_value (2 ^ n) (pword v) a (fun i => a_ent U i 0) ->
  (the_flag kw "return_state" = true -> Forall (has_value (2 ^ n) (pword v) a) ss) /\
  (the_flag kw "return_unitary" = true -> Forall (fun u => has_value (2 ^ n) (pword v) a (fun i => u i 0)) us) /\
  exists circuits, Forall2 (fun u c => unitary2 (2 ^ n) u /\ has_value (2 ^ n) (pword v) a (fun i => u i 0) /\ exact_cost n obs u = Ok c) circuits cs.
Proof.
  intros x eigh random n gates obs w ls etas asked p0 kw r cs ss os us ps zs v a U Hg Hf Hh Hs Ha Hpert Hls E Hr Hc EU Hv. unfold approx_optimizer in E. set (cm := truthy (kw_get kw "commute" (PyBool false))) in E.
  destruct (C56_C59_approximate_histories _ _ _ _ _ _ _ _ _ _ _ _ _ _ _ _ _ _ _ _ _ _ _ _ Ha E Hr) as (confs & u0 & T & ls' & Els & E0 & H0 & Hl & HT & Hch & Hcost & Hst & Hun & _).
  assert (ls' = ls). { injection Els as Els. clear -Els. revert ls' Els. induction ls as [|b ls IH]; intros [|c ls'] Els; try discriminate; [reflexivity|]. injection Els as -> Els. f_equal. apply IH. exact Els. }
  subst ls'. rewrite EU in E0. cbn [bind] in E0. destruct (print_layers w (AList (map Some ls))) as [[]|]; cbn [bind] in E0; [|discriminate]. injection E0 as <-.
  destruct (start_unitary n gates Hg) as (U' & EU' & HU'). rewrite EU in EU'. injection EU' as <-.
  assert (Hk : forall k y, nth_error confs k = Some y -> (forall j, nth_error (objects y) j = nth_error w j) /\ unitary2 (2 ^ n) (unitary_of y) /\ has_value (2 ^ n) (pword v) a (qnode_state (unitary_of y))).
  { induction k as [|k IH]; intros y Ey; [rewrite H0 in Ey; injection Ey as <-; split; [reflexivity|]; split; [exact HU'|exact Hv]|].
    destruct (nth_error confs k) as [y0|] eqn:Ey0; [|apply nth_error_None in Ey0; assert (S k < List.length confs) by (apply nth_error_Some; congruence); lia].
    destruct (IH y0 eq_refl) as (I1 & I2 & I3). destruct (Hch k y0 y Ey0 Ey) as (u' & i & Hre & Ei & Ec & _).
    assert (u' = unitary_of y0) as ->. { rewrite Hpert in Hre. destruct k; cbn [restart] in Hre; [exact Hre|]. destruct Hre as [(Q & _)|(_ & Q)]; [discriminate|exact Q]. }
    destruct (layer_call n obs v a (etas i) (asked i) w i Hf Hh Hc (Hls i (nth_error_In _ _ Ei)) x cm _ _ _ _ _ _ Hs (I1 i) I2 I3 Ec) as (Q1 & Q2 & Q3). split; [intros j; rewrite Q1; apply I1|]. split; assumption. }
  split; [|split].
  - intros Hf'. specialize (Hst Hf'). apply Forall_forall. intros s Hin. apply In_nth_error in Hin. destruct Hin as (k & Ek).
    assert (Q : exists y, nth_error confs k = Some y /\ s = qnode_state (unitary_of y)).
    { clear - Hst Ek. revert k Ek. induction Hst as [|y s' cw ss E _ IH]; intros [|k] Ek; try discriminate; cbn in Ek |- *; [exists y; split; [reflexivity|congruence]|apply IH; exact Ek]. }
    destruct Q as (y & Ey & ->). apply (Hk k y Ey).
  - intros Hf'. rewrite (Hun Hf'). apply Forall_map, Forall_forall. intros y Hy. apply In_nth_error in Hy. destruct Hy as (k & Ek). apply (Hk k y Ek).
  - exists (map unitary_of confs). clear - Hcost Hk. induction Hcost as [|y c cw cc E _ IH]; cbn [map]; constructor; [|apply IH; intros k z Ez; exact (Hk (S k) z Ez)]. destruct (Hk 0 y eq_refl) as (_ & Q1 & Q2). auto.
Qed.
Print Assumptions C106_run.

(** ** C107 *)

(** The greedy layers: the string is conserved by every call for which some admissible
    direction has a nonzero gradient. *)
Lemma chosen_commutes n v a U obs Os P : conserved_string n obs v -> Forall2 (embedded n) obs Os -> unitary2 (2 ^ n) U -> has_value (2 ^ n) (pword v) a (qnode_state U) -> is_word n (a_ent P) ->
  slope n Os U P <> 0%R -> meq (2 ^ n) (mmul (K := C) (2 ^ n) (pword v) (a_ent P)) (mmul (2 ^ n) (a_ent P) (pword v)).
Proof.
  intros (Hl & Hv & Hc) HE HU Hx HP Hsl. destruct (word_commutes n v (a_ent P) Hl Hv HP) as [M|M]; [exact M|]. exfalso. apply Hsl. unfold slope.
  assert (HS : meq (2 ^ n) (mmul (K := C) (2 ^ n) (pword v) (msum a_ent Os)) (mmul (2 ^ n) (msum a_ent Os) (pword v))).
  { symmetry. apply msum_commutes. intros O HO. symmetry. clear - HE Hc HO. induction HE as [|o F obs Os HF _ IH]; [destruct HO|]. destruct HO as [<-|HO]; [apply (Hc o F (or_introl eq_refl) HF)|apply IH; [intros o' F' Hin; apply Hc; right; exact Hin|exact HO]]. }
  assert (Hh : hermitian (2 ^ n) (pword (K := C) v)) by (unfold hermitian; rewrite <- Hl; apply pword_herm; exact Hv).
  pose proof (gradient_vanishes (2 ^ n) (pword v) a (qnode_state U) (a_ent P) (msum a_ent Os) Hh (string_value n v a U Hl Hv HU Hx) Hx HS M) as Z. unfold omega in Z. change (fun i => U i 0) with (qnode_state U). rewrite Z. apply Rabs_R0.
Qed.

Lemma roto_conserves n v a k Os P U : meq (2 ^ n) (mmul (K := C) (2 ^ n) (pword v) (a_ent P)) (mmul (2 ^ n) (a_ent P) (pword v)) -> has_value (2 ^ n) (pword v) a (qnode_state U) -> has_value (2 ^ n) (pword v) a (qnode_state (fst (rotosolve n (a_ent P) Os U k))).
Proof.
  intros M Hx. unfold rotosolve. cbn [fst]. unfold roto_gate. apply value_conserved; [apply pow2_pos| |exact Hx]. rewrite mmul_scale_l, mmul_scale_r, M. reflexivity.
Qed.

Lemma table_words n lens (table : list (key * arr C)) k P : complete_algebra (K := C) n lens table -> In (k, P) table -> is_word n (a_ent P) /\ hermitian (2 ^ n) (a_ent P).
Proof.
  intros (_ & H1 & H2) Hin. destruct k as [d q]. destruct (proj1 (H1 d q)) as (w & -> & _ & Hw & Hq); [apply (in_map fst) in Hin; exact Hin|].
  assert (HW : word_operator n (word_name w) q P) by (intros w' u E F L A B; apply (H2 (word_name w) q P w' u Hin E F L A B)). assert (E : meq (2 ^ n) (a_ent P) (pword (place n q w))) by (apply PropZassenhaus.word_place; [split; [exact Hw|exact Hq]|exact HW]).
  assert (Fl : Forall (fun g => g <= 3) (place n q w)). { eapply Forall_impl; [|apply (place_letters n q w 4); [|lia]]; simpl; [intros; lia|]. eapply Forall_impl; [|exact Hw]. simpl. intros; lia. }
  split; [exists (place n q w); split; [apply place_length|]; split; [exact Fl|exact E]|]. unfold hermitian. rewrite E. pose proof (pword_herm (K := C) (place n q w) Fl) as Q. rewrite place_length in Q. exact Q.
Qed.

Lemma greedy_conserves n v a obs Os lens (table : list (key * arr C)) prev U k P : conserved_string n obs v -> Forall2 (embedded n) obs Os -> complete_algebra (K := C) n lens table -> unitary2 (2 ^ n) U ->
  first_largest (slope n Os U) prev table k P ->
  let V := fst (rotosolve n (a_ent P) Os U (String.length (fst k))) in unitary2 (2 ^ n) V /\
    (has_value (2 ^ n) (pword v) a (qnode_state U) -> (exists k' P', In (k', P') table /\ Some k' <> prev /\ slope n Os U P' <> 0%R) -> has_value (2 ^ n) (pword v) a (qnode_state V)).
Proof.
  intros Hc HE HT HU (Hp & l1 & l2 & E & F1 & F2) V. assert (Hin : In (k, P) table) by (rewrite E; apply in_or_app; right; left; reflexivity). destruct (table_words n lens table k P HT Hin) as [HW HH].
  split; [apply roto_unitary; assumption|]. intros Hx (k' & P' & Hin' & Hp' & Hs). apply roto_conserves; [|exact Hx]. apply (chosen_commutes n v a U obs Os P); auto. rewrite Forall_forall in F1, F2.
  assert (Pos : (0 < slope n Os U P')%R) by (unfold slope in *; apply Rabs_pos_lt; intros Z; apply Hs; rewrite Z; apply Rabs_R0).
  rewrite E in Hin'. apply in_app_or in Hin'. destruct Hin' as [Q|[Q|Q]]; [specialize (F1 _ Q Hp'); cbn [snd] in F1; lra|injection Q as <- <-; exact Hs|specialize (F2 _ Q Hp'); cbn [snd] in F2; lra].
Qed.

Theorem C107_squared_partial : forall n obs eta v a, Forall (fits n) obs -> (0 <= eta <= 1)%R -> 1 <= n -> conserved_string n obs v ->
  exists l Os, SquaredLieAlgebraLayer n obs eta = Ok l /\ Forall2 (embedded n) obs Os /\ forall prev U, unitary2 (2 ^ n) U ->
    exists k V, squared_call (at_direction l prev) U = Ok (V, at_direction l (Some k)) /\ unitary2 (2 ^ n) V /\
      (has_value (2 ^ n) (pword v) a (fun i => U i 0) -> (exists k' P', In (k', P') (gr_table l) /\ Some k' <> prev /\ slope n Os U P' <> 0%R) -> has_value (2 ^ n) (pword v) a (fun i => V i 0)).
Proof.
  intros n obs eta v a Hf He Hn Hc. destruct (obs_embedded n obs Hf) as (Os & EO & HO). destruct (squared_init n obs Os eta EO He) as (table & El & Ek & Hk).
  assert (HT : complete_algebra (K := C) n [1; 2] table) by (apply complete_intro; auto; repeat constructor; simpl; lia).
  exists (mkgreedy n table Os None), Os. split; [exact El|]. split; [exact HO|]. intros prev U HU. unfold at_direction. cbn [gr_n gr_table gr_obs].
  destruct (pick_spec n table prev Os U (proj1 HT)) as (k & P & E & Hfl).
  { destruct HT as (_ & Hin & _). apply (keys_left table prev ("X"%string, [0]) ("Y"%string, [0])); [| |congruence]; apply Hin; [exists [1]|exists [2]]; repeat split; simpl; auto; repeat constructor; lia. }
  destruct (greedy_conserves n v a obs Os [1; 2] table prev U k P Hc HO HT HU Hfl) as [Q1 Q2]. exists k, (fst (rotosolve n (a_ent P) Os U (String.length (fst k)))). split; [|split; [exact Q1|exact Q2]].
  unfold squared_call. cbn [gr_n gr_table gr_obs gr_prev]. rewrite E. reflexivity.
Qed.
Print Assumptions C107_squared_partial.

Theorem C107_su8_partial : forall n obs eta add_su2 add_su4 v a, Forall (fits n) obs -> (0 <= eta <= 1)%R -> 3 <= n -> conserved_string n obs v ->
  exists l Os, SU8_AlgebraLayer n obs eta add_su2 add_su4 = Ok l /\ Forall2 (embedded n) obs Os /\ forall prev U, unitary2 (2 ^ n) U ->
    exists k V, su8_call (at_direction l prev) U = Ok (V, at_direction l (Some k)) /\ unitary2 (2 ^ n) V /\
      (has_value (2 ^ n) (pword v) a (fun i => U i 0) -> (exists k' P', In (k', P') (gr_table l) /\ slope n Os U P' <> 0%R) -> has_value (2 ^ n) (pword v) a (fun i => V i 0)).
Proof.
  intros n obs eta b c v a Hf He Hn Hc. destruct (obs_embedded n obs Hf) as (Os & EO & HO). destruct (su8_init n obs Os eta b c EO He Hn) as (table & El & Ek & Hk).
  assert (HT : complete_algebra (K := C) n (ks8 b c) table) by (apply complete_intro; auto; apply ks8_NoDup).
  exists (mkgreedy n table Os None), Os. split; [exact El|]. split; [exact HO|]. intros prev U HU. unfold at_direction. cbn [gr_n gr_table gr_obs].
  destruct (pick_spec n table None Os U (proj1 HT)) as (k & P & E & Hfl).
  { destruct HT as (_ & Hin & _). apply (keys_left table None ("XXX"%string, [0; 1; 2]) ("XXY"%string, [0; 1; 2])); [| |congruence]; apply Hin; [exists [1; 1; 1]|exists [1; 1; 2]]; (split; [reflexivity|]; split; [destruct b, c; simpl; tauto|]); repeat split; simpl; auto; repeat constructor; lia. }
  assert (Ef : filter (fun kv : key * arr C => negb (is_prev None (fst kv))) table = table) by (clear; induction table as [|y t IH]; [reflexivity|]; simpl; f_equal; exact IH). rewrite Ef in E.
  destruct (greedy_conserves n v a obs Os _ table None U k P Hc HO HT HU Hfl) as [Q1 Q2]. exists k, (fst (rotosolve n (a_ent P) Os U (String.length (fst k)))). split; [|split; [exact Q1|]].
  - unfold su8_call. cbn [gr_n gr_table gr_obs gr_prev]. rewrite E. reflexivity.
  - intros Hx (k' & P' & Hin & Hs). apply Q2; [exact Hx|]. exists k', P'. split; [exact Hin|]. split; [discriminate|exact Hs].
Qed.
Print Assumptions C107_su8_partial.

(** If all gradients vanish the greedy layer turns along the first direction, whatever it does
    to the string: one qubit, the observable Z, the state |0>. *)
Theorem C107_squared_refuted : exists l k V, SquaredLieAlgebraLayer 1 [z_obs] (1 / 10) = Ok l /\ conserved_string 1 [z_obs] [3] /\ unitary2 2 (mid (K := C)) /\ has_value 2 (pword [3]) 1 (fun i => mid i 0) /\
  squared_call l mid = Ok (V, at_direction l (Some k)) /\ ~ has_value 2 (pword [3]) 1 (fun i => V i 0).
Proof.
  assert (Hf : Forall (fits 1) [z_obs]) by (constructor; [apply z_obs_fit|constructor]).
  assert (Ez : forall F, embedded 1 z_obs F -> meq 2 (a_ent F) (a_ent (lit_Z (K := C)))).
  { intros F (_ & _ & HE) r c Hr Hc. destruct (HE r c Hr Hc) as (_ & H). apply H; [|exact Hr|exact Hc|intros i Hi; simpl in Hi; replace i with 0 by lia; reflexivity|intros i Hi; simpl in Hi; replace i with 0 by lia; reflexivity].
    intros v Hv Hn. exfalso. apply Hn. left. lia. }
  assert (Ep : meq 2 (pword (K := C) [3]) (a_ent (lit_Z (K := C)))) by (intros i j Hi Hj; (destruct i as [|[|i]]; [| |lia]); (destruct j as [|[|j]]; [| |lia]); apply C_ext; cbn; ring).
  assert (Hc : conserved_string 1 [z_obs] [3]).
  { split; [reflexivity|]. split; [repeat constructor|]. intros o F [<-|[]] HE. apply Ez in HE. change (2 ^ 1) with 2. rewrite Ep, HE. reflexivity. }
  assert (He : (0 <= 1 / 10 <= 1)%R) by lra. destruct (obs_embedded 1 [z_obs] Hf) as (Os & EO & HO). destruct (squared_init 1 [z_obs] Os (1 / 10) EO He) as (table & El & Ek & Hk).
  assert (HT : complete_algebra (K := C) 1 [1; 2] table) by (apply complete_intro; auto; repeat constructor; simpl; lia).
  destruct (pick_spec 1 table None Os mid (proj1 HT)) as (k & P & E & Hfl).
  { destruct HT as (_ & Hin & _). apply (keys_left table None ("X"%string, [0]) ("Y"%string, [0])); [| |congruence]; apply Hin; [exists [1]|exists [2]]; repeat split; simpl; auto; repeat constructor; lia. }
  exists (mkgreedy 1 table Os None), k, (fst (rotosolve 1 (a_ent P) Os mid (String.length (fst k)))). split; [exact El|]. split; [exact Hc|]. split; [apply unitary2_id|].
  split. { intros i Hi. cbn [seq]. rewrite !lsum_cons, lsum_nil, !Ep by lia. (destruct i as [|[|i]]; [| |lia]); apply C_ext; cbn; ring. }
  split. { unfold squared_call. cbn [gr_n gr_table gr_obs gr_prev]. rewrite E. reflexivity. }
  inversion HO as [|o F obs' Os' HF HN]; subst. inversion HN; subst. clear HN. pose proof (Ez F HF) as MF.
  assert (Z : forall Q, slope 1 [F] mid Q = 0%R).
  { intros Q. unfold slope. match goal with |- Rabs ?z = _ => replace z with 0%R; [apply Rabs_R0|] end. unfold quad, msub, mmul, msum. change (2 ^ 1) with 2. cbn [seq]. rewrite !lsum_cons, !lsum_nil, !MF by lia.
    cbn. destruct (a_ent Q 0 0), (a_ent Q 0 1), (a_ent Q 1 0), (a_ent Q 1 1). cbn. ring. }
  destruct Hfl as (_ & l1 & l2 & Et & F1 & _). destruct l1 as [|y l1]; [|exfalso; apply Forall_inv in F1; specialize (F1 ltac:(discriminate)); rewrite !Z in F1; lra].
  assert (k = ("X"%string, [0])) as ->. { rewrite Et in Ek. cbn [app map fst] in Ek. apply (f_equal (hd ("X"%string, [0]))) in Ek. exact Ek. }
  assert (HP : word_operator 1 "X" [0] P). { apply key_ok_word. rewrite Forall_forall in Hk. apply Hk. rewrite Et. left. reflexivity. }
  assert (Hq : qubit_tuple 1 1 [0]) by (repeat split; repeat constructor; lia).
  destruct (C46_rotosolve_one_qubit 1 "X" [0] P [F] mid ltac:(left; reflexivity) Hq HP (unitary2_id _)) as (HV & Min & _). cbn [fst String.length]. set (V := fst (rotosolve 1 (a_ent P) [F] mid 1)) in *. clearbody V.
  assert (En : forall u, energy 1 [F] u = (let x := u 0 0 in let y := u 1 0 in (Re x * Re x + Im x * Im x - (Re y * Re y + Im y * Im y))%R)).
  { intros u. pose proof (z_cost u) as Q. rewrite (cost_energy 1 [z_obs] [F] u) in Q; [injection Q as Q; exact Q|]. cbn [mapM bind] in EO. destruct (CircuitModel.full 1 z_obs) as [F'|] eqn:EF; cbn [bind] in EO; [|discriminate]. injection EO as ->. constructor; [exact EF|constructor]. }
  assert (EP : meq 2 (a_ent P) (a_ent (lit_X (K := C)))).
  { destruct (HP [1] [1]) as (_ & _ & M); [reflexivity|repeat constructor|reflexivity|intros [|i] Hi; [reflexivity|simpl in Hi; lia]|intros [|p] Hp Hn; [exfalso; apply Hn; left; reflexivity|lia]|].
    change (2 ^ 1) with 2 in M. rewrite M. intros i j Hi Hj; (destruct i as [|[|i]]; [| |lia]); (destruct j as [|[|j]]; [| |lia]); apply C_ext; cbn; ring. }
  assert (PP : meq 2 (mmul 2 (a_ent P) (a_ent P)) mid). { rewrite EP. intros i j Hi Hj; (destruct i as [|[|i]]; [| |lia]); (destruct j as [|[|j]]; [| |lia]); unfold mmul; cbn [seq]; rewrite !lsum_cons, lsum_nil; apply C_ext; cbn; ring. }
  specialize (Min (PI / 2)%R). rewrite !En in Min.
  assert (ER : meq 2 (rotated 1 (a_ent P) (PI / 2) mid) (madd (SR := CStar) (mscale (SR := CStar) (RtoC (cos (PI / 2))) mid) (mscale (SR := CStar) (mit (sin (PI / 2))) (a_ent P)))).
  { unfold rotated. change (2 ^ 1) with 2. rewrite mmul_1_r. rewrite <- (expm_involution 2 (a_ent P) (PI / 2) PP). apply expm_proper. intros i j _ _. unfold mscale, mit. cbn [kmul CStar]. apply C_ext; simpl; ring. }
  rewrite (ER 0 0), (ER 1 0) in Min by lia. unfold madd, mscale, mit in Min. rewrite !EP, cos_PI2, sin_PI2 in Min by lia. cbn in Min.
  intros Hv. specialize (Hv 1 ltac:(lia)). cbn [seq] in Hv. rewrite !lsum_cons, lsum_nil, !Ep in Hv by lia. cbn in Hv. destruct (V 0 0) as [a b], (V 1 0) as [c e]. cbn in Hv, Min. injection Hv as H1 H2.
  assert (c = 0)%R by lra. assert (e = 0)%R by lra. subst c e. nra.
Qed.
Print Assumptions C107_squared_refuted.

(** The circuit and the observables X_1, X_0, Y_0 of eigenstate_perturbation.py, with a
    LocalLieAlgebraLayer of locality 2 and all its directions: X_1 is conserved, and the costs
    stay above 1 - sqrt 2, though the lowest eigenvalue is smaller. *)
Lemma ep_string : conserved_string 2 ep_observables [0; 1] /\ meq 4 (pword (K := C) [0; 1]) ep_X1.
Proof.
  assert (E : meq 4 (pword (K := C) [0; 1]) ep_X1) by (intros i j Hi Hj; four i Hi; four j Hj; apply C_ext; cbn; ring). split; [|exact E]. split; [reflexivity|]. split; [repeat constructor|].
  intros o F Ho HE. change (2 ^ 2) with 4. rewrite E. exact (ep_commutes o F Ho HE).
Qed.
Example C106_case : exists x eigh w r cs ss os us ps zs G, svd_correct (or_svd x) /\ List.length w = 1 /\ (forall i, In i [0] -> exists o, nth_error w i = Some o /\ rate_layer 2 ep_observables (1 / 10) o (fun d q => In d su4_list /\ qubit_tuple 2 2 q)) /\
  approx_optimizer x eigh (fun _ _ _ => 0%R) 2 ep_circuit ep_observables w RetState (AList (map Some [0])) [] (run_kw (1 / 10)) = Ok r /\ ap_result (run_kw (1 / 10)) r cs ss os us ps zs /\
  get_hamiltonian_matrix 2 ep_observables None = Ok G /\ lowest 4 (a_ent G) (- 1 - sqrt 2) /\ Forall (fun c => 1 - sqrt 2 <= c)%R cs.
Proof.
  destruct eigh_exists as (eigh & He). set (x := mkoracles svd_trivial (fun l => l) (fun _ => 0) (0, 0, 0) (fun f => (f (0, 0, 0)%R, 0, 0)%R)).
  assert (Hg : good_args 2 2 (1 / 10) 0 None) by (split; [lra|]; split; [auto|]; split; [intros _; split; [exists 1; reflexivity|auto]|exact I]).
  assert (Ht : false = true \/ @None (list string) <> Some []) by (right; discriminate).
  destruct (C42_local_layer_unitary 2 ep_observables 2 (1 / 10) 0 None true false ep_fits ep_hermitian Hg Ht) as (l & El & _).
  set (w := [OLocal (local_set_eta l (1 / 10))]).
  assert (A : ap_accepts (AList (map Some [0])) (run_kw (1 / 10))) by (apply run_kw_ok; lra).
  destruct (C66_approximate_returns x eigh (fun _ _ _ => 0%R) 2 ep_circuit ep_observables w [0] [] (run_kw (1 / 10))) as (r & Er); try assumption.
  - exact ep_gates.
  - exact ep_fits.
  - apply svd_trivial_correct.
  - apply He.
  - constructor; [|constructor]. exact (dep_local 2 _ 2 (1 / 10) 0 _ true false l (1 / 10) ep_fits ep_hermitian Hg Ht El).
  - discriminate.
  - repeat constructor.
  - constructor.
  - left. reflexivity.
  - discriminate.
  - pose proof Er as Er'. unfold approx_optimizer in Er'. destruct (C60_approximate_shape _ _ _ _ _ _ _ _ _ _ _ _ _ _ _ _ _ _ A Er') as (cs & ss & os & us & ps & zs & Hr). clear Er'.
    destruct ep_start as (U & EU & MU). destruct ep_ham as (G & EG & MG). destruct ep_string as [HS ES].
    assert (HL : forall i, In i [0] -> exists o, nth_error w i = Some o /\ rate_layer 2 ep_observables (1 / 10) o (fun d q => In d su4_list /\ qubit_tuple 2 2 q)).
    { intros i [<-|[]]. exists (OLocal (local_set_eta l (1 / 10))). split; [reflexivity|]. exact (rate_local 2 ep_observables (1 / 10) 2 (1 / 10) 0 None true false l Hg Ht El). }
    assert (H0 : has_value (2 ^ 2) (pword [0; 1]) 1 (fun i => a_ent U i 0)).
    { intros i Hi. rewrite <- (ep_X1_start (a_ent U) MU i Hi). apply (mv_ext 4 _ _ _ _ ES (veq_refl 4 (fun i => a_ent U i 0)) i Hi). }
    destruct (C106_run x eigh _ 2 ep_circuit ep_observables w [0] (fun _ => (1 / 10)%R) (fun _ d q => In d su4_list /\ qubit_tuple 2 2 q) [] (run_kw (1 / 10)) r cs ss os us ps zs [0; 1] 1%R U ep_gates ep_fits ep_hermitian svd_trivial_correct A eq_refl HL Er Hr HS EU H0) as (_ & _ & circuits & HC).
    exists x, eigh, w, r, cs, ss, os, us, ps, zs, G. split; [apply svd_trivial_correct|]. split; [reflexivity|]. split; [exact HL|]. split; [exact Er|]. split; [exact Hr|]. split; [exact EG|]. split.
    + apply (ep_lowest (a_ent G) MG).
    + clear - HC ES. induction HC as [|u c cu cc (Hu & Hv & Ec) _ IH]; constructor; [|exact IH]. rewrite ep_cost in Ec. injection Ec as <-. apply ep_floor; [exact Hu|].
      intros i Hi. rewrite <- (Hv i Hi). symmetry. apply (mv_ext 4 _ _ _ _ ES (veq_refl 4 (fun i => u i 0)) i Hi).
Qed.

(** The same circuit and observables for the greedy layer: the gradient along Z_0 is not zero, so
    the first call conserves X_1. *)
Example C107_case : exists l k V U, SquaredLieAlgebraLayer 2 ep_observables (1 / 10) = Ok l /\ circuit_unitary 2 ep_circuit = Ok U /\
  squared_call (at_direction l None) (a_ent U) = Ok (V, at_direction l (Some k)) /\ unitary2 4 V /\ has_value 4 (pword [0; 1]) 1 (fun i => V i 0).
Proof.
  destruct ep_string as [HS ES]. destruct ep_start as (U & EU & MU).
  assert (H0 : has_value (2 ^ 2) (pword [0; 1]) 1 (fun i => a_ent U i 0)).
  { intros i Hi. rewrite <- (ep_X1_start (a_ent U) MU i Hi). apply (mv_ext 4 _ _ _ _ ES (veq_refl 4 (fun i => a_ent U i 0)) i Hi). }
  destruct (start_unitary 2 ep_circuit ep_gates) as (U' & EU' & HU). rewrite EU in EU'. injection EU' as <-.
  destruct (C107_squared_partial 2 ep_observables (1 / 10) [0; 1] 1%R ep_fits ltac:(lra) ltac:(lia) HS) as (l & Os & El & HO & Hcall). destruct (Hcall None (a_ent U) HU) as (k & V & E & HV & Q).
  exists l, k, V, U. split; [exact El|]. split; [exact EU|]. split; [exact E|]. split; [exact HV|]. apply Q; [exact H0|]. clear Q E HV Hcall.
  destruct (C48_squared_greedy 2 ep_observables (1 / 10) ep_fits ltac:(lra) ltac:(lia)) as (l' & Os' & table & El' & HO' & <- & (_ & HT & HM) & _). rewrite El in El'. injection El' as <-.
  assert (Hin : In ("Z"%string, [0]) (map fst (gr_table l))) by (apply HT; exists [3]; repeat split; simpl; auto; repeat constructor; lia).
  apply in_map_iff in Hin. destruct Hin as ([k' P] & Ek & Hin). cbn [fst] in Ek. subst k'. exists ("Z"%string, [0]), P. split; [exact Hin|]. split; [discriminate|].
  destruct (HM "Z"%string [0] P [3] [3; 0] Hin eq_refl) as (_ & _ & MP); [repeat constructor|reflexivity|intros [|i] Hi; [reflexivity|simpl in Hi; lia]|intros [|[|p]] Hp Hn; [exfalso; apply Hn; left; reflexivity|reflexivity|lia]|].
  assert (MO : meq 4 (msum a_ent Os) ep_table).
  { destruct ep_ham as (G & EG & MG). destruct (hamiltonian_sum 2 ep_observables Os G ep_fits ep_hermitian HO EG) as [M _]. change (2 ^ 2) with 4 in M. rewrite <- M. exact MG. }
  change (2 ^ 2) with 4 in *. unfold slope. change (2 ^ 2) with 4.
  match goal with |- Rabs ?z <> _ => replace z with (-2)%R; [rewrite Rabs_left; lra|] end.
  rewrite quad_ip, (ip_ext 4 _ (fun _ => RtoC (/ 2)) _ (mv 4 (msub (mmul 4 (pword [3; 0]) ep_table) (mmul 4 ep_table (pword [3; 0]))) (fun _ => RtoC (/ 2)))).
  - unfold ip, mv, msub, mmul; cbn [seq]; rewrite !lsum_cons, !lsum_nil. cbn. lra.
  - exact MU.
  - apply mv_ext; [rewrite MP, MO; reflexivity|exact MU].
Qed.
