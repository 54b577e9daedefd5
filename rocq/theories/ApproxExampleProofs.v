(** The states, observables and costs of approximate_example.py: lemmas for property C108. *)
From Coq Require Import ZArith Arith Lia Bool String Sorted Reals Lra Ring Setoid Morphisms Classical Permutation.
From Coquelicot Require Import Coquelicot.
From Verif Require Import Py StarRing Matrix Cplx PauliSpec Bits PauliBasis Expm MDeriv UtilsModel CircuitModel CircuitProofs CircuitProofs2 AlgebraModel AlgebraProofs CommProofs
  LayerModel LayerProofs LayerProofs2 OptimizerModel OptProofs GreedyModel RotoProofs GreedyProofs FlowModel FlowProofs FlowProofs2 FlowMany FlowRate LayerRate AdaptModel AdaptProofs ApproxModel ApproxProofs
  PropAlgebra PropLayers PropGreedy PropOptArgs PropOptRun PropFlow PropApprox PropFlowRate PropLayerState PropOptions PropShiftRun PropLayerRate PropSpectrum PropConserved PropMany.
From Verif Require Import AlgebraProofs UtilsProofs PropZassenhaus EigenstateModel PropEigenstate PlotModel PropPlot ApproxExampleModel ApproxExampleNum.
From Coq Require Import List.
Import ListNotations.
Local Open Scope nat_scope.
Local Open Scope list_scope.

(** ** The states *)

(** exp(i (t - pi/4)/2 Z Z) |++> *)
Definition example_state (t : R) (i : nat) : C :=
  let a := ((t - PI / 4) / 2)%R in match i with 0 | 3 => (cos a / 2, sin a / 2)%R | _ => (cos a / 2, - sin a / 2)%R end.

(** ** Exponentials on eigenvectors *)
Lemma mpow_value d A x t k : veq d (mv d A x) (fun i => Cmult (0, t)%R (x i)) -> veq d (mv d (mpow (SR := CStar) d A k) x) (fun i => Cmult (fst (uv t k), snd (uv t k)) (x i)).
Proof.
  intros H. induction k as [|k IH]; intros i Hi; cbn [mpow uv].
  - rewrite mv_id by exact Hi. destruct (x i). apply C_ext; simpl; ring.
  - rewrite mv_mul, (mv_veq d A _ _ IH i Hi), mv_scale, (H i Hi). destruct (uv t k), (x i). apply C_ext; simpl; ring.
Qed.
Lemma expm_value d A x t : veq d (mv d A x) (fun i => Cmult (0, t)%R (x i)) -> veq d (mv d (expm d A) x) (fun i => Cmult (cos t, sin t)%R (x i)).
Proof.
  intros H i Hi. eapply cser_unique with (a := fun k => mv d (eterm d A k) x i).
  - unfold mv. apply (cser_lsum (fun j k => Cmult (eterm d A k i j) (x j)) (fun j => Cmult (expm d A i j) (x j))). intros j Hj. apply in_seq in Hj.
    eapply cser_ext with (a := fun k => Cmult (x j) (eterm d A k i j)); [intros; ring|]. rewrite (Cmult_comm (expm d A i j)). apply cser_scal. apply expm_cser; lia.
  - eapply cser_ext with (a := fun k => Cmult (x i) (Cmult (RtoC (/ INR (fact k))) (fst (uv t k), snd (uv t k)))).
    + intros k. unfold eterm. rewrite mv_scale_mat, (mpow_value d A x t k H i Hi). ring.
    + rewrite Cmult_comm. apply cser_scal. split; cbn [Re Im fst snd].
      * eapply is_series_extR; [|apply cos_series]. intros k. cbn. unfold Rdiv. ring.
      * eapply is_series_extR; [|apply sin_series]. intros k. cbn. unfold Rdiv. ring.
Qed.

(** ** Matrices diagonal on the two Bell states |00>+|11> and |01>+|10> *)
Definition phip (i : nat) : C := match i with 0 | 3 => RtoC 1 | _ => RtoC 0 end.
Definition psip (i : nat) : C := match i with 1 | 2 => RtoC 1 | _ => RtoC 0 end.
Definition bell (t : R) (A : mat C) : Prop := veq 4 (mv 4 A phip) (fun i => Cmult (0, t)%R (phip i)) /\ veq 4 (mv 4 A psip) (fun i => Cmult (0, - t)%R (psip i)).

Lemma bell_scale s t A : bell t A -> bell (s * t) (mscale (SR := CStar) (RtoC s) A).
Proof. intros [H1 H2]. split; intros i Hi; rewrite mv_scale_mat; [rewrite (H1 i Hi)|rewrite (H2 i Hi)]; rewrite Cmult_assoc; f_equal; apply C_ext; simpl; ring. Qed.
Lemma bell_ext t t' A B : t = t' -> meq 4 A B -> bell t A -> bell t' B.
Proof. intros <- M [H1 H2]. split; intros i Hi; [rewrite <- (H1 i Hi)|rewrite <- (H2 i Hi)]; (apply mv_ext; [symmetry; exact M|apply veq_refl|exact Hi]). Qed.
Lemma bell_msum {X} (f : X -> mat C) (g : X -> R) l : (forall x, In x l -> bell (g x) (f x)) -> bell (rsum g l) (msum f l).
Proof.
  induction l as [|x l IH]; intros H.
  - split; intros i Hi; (transitivity (RtoC 0); [unfold mv, msum; apply (lsum_zero (SR := CStar)); intros; rewrite lsum_nil; cbn [kmul k0 CStar]; ring|cbn [rsum]; apply C_ext; simpl; ring]).
  - assert (E : meq 4 (madd (SR := CStar) (f x) (msum f l)) (msum f (x :: l))) by (intros p q _ _; unfold msum, madd; rewrite lsum_cons; reflexivity).
    eapply bell_ext; [reflexivity|exact E|]. destruct (H x (or_introl eq_refl)) as [H1 H2]. destruct (IH (fun y Hy => H y (or_intror Hy))) as [H3 H4]. cbn [rsum].
    split; intros i Hi; rewrite mv_add_mat; [rewrite (H1 i Hi), (H3 i Hi)|rewrite (H2 i Hi), (H4 i Hi)]; apply C_ext; simpl; ring.
Qed.

Lemma bell_state t s A x : bell s A -> veq 4 x (example_state t) -> veq 4 (mv 4 (expm 4 A) x) (example_state (t + 2 * s)).
Proof.
  intros [H1 H2] Hx i Hi. set (a := ((t - PI / 4) / 2)%R).
  assert (E : veq 4 x (fun i => Cplus (Cmult (cos a / 2, sin a / 2)%R (phip i)) (Cmult (cos a / 2, - sin a / 2)%R (psip i)))).
  { intros j Hj. rewrite (Hx j Hj). unfold example_state. fold a. four j Hj; apply C_ext; cbn; ring. }
  rewrite (mv_veq 4 _ _ _ E i Hi), mv_add, !mv_scale, (expm_value 4 A phip s H1 i Hi), (expm_value 4 A psip (- s) H2 i Hi).
  unfold example_state. replace ((t + 2 * s - PI / 4) / 2)%R with (a + s)%R by (unfold a; field). rewrite cos_plus, sin_plus, cos_neg, sin_neg. four i Hi; apply C_ext; cbn; field.
Qed.

Lemma bell_gens c l : forall ts, Forall2 (fun A t => bell t A) l ts -> forall t U, veq 4 (qnode_state U) (example_state t) ->
  veq 4 (qnode_state (apply_gens 4 (RtoC c) l U)) (example_state (t + 2 * (c * rsum (fun x => x) ts))).
Proof.
  intros ts H. induction H as [|A s l ts HA _ IH]; intros t U HU; [cbn [rsum apply_gens fold_left]; replace (t + 2 * (c * 0))%R with t by ring; exact HU|]. rewrite apply_gens_cons. cbn [rsum].
  replace (t + 2 * (c * (s + rsum (fun x => x) ts)))%R with ((t + 2 * (c * s)) + 2 * (c * rsum (fun x => x) ts))%R by ring. apply IH. intros i Hi. rewrite state_mmul.
  apply (bell_state t (c * s)); [apply bell_scale; exact HA|exact HU|exact Hi].
Qed.

(** ** The directions YY and ZZ *)
Definition pair_sign (P : arr C) : R := Re (Cplus (a_ent P 0 0) (a_ent P 0 3)).
Lemma pair_bell P phi O : hermitian 4 O -> (meq 4 (a_ent P) (pword [2; 2]) \/ meq 4 (a_ent P) (pword [3; 3])) -> hermitian 4 (a_ent P) -> bell (Im (omega 4 phi (a_ent P) O) * pair_sign P) (gen 4 phi O P).
Proof.
  intros HO HP Hh. pose proof (comm_imaginary 4 phi (a_ent P) O Hh HO) as Z. unfold gen, pair_sign. fold (omega 4 phi (a_ent P) O) in Z. destruct (omega 4 phi (a_ent P) O) as [p w]. simpl in Z. subst p.
  assert (S : exists s, (forall i j, i < 4 -> j < 4 -> a_ent P i j = pword (K := C) [s; s] i j) /\ (s = 2 \/ s = 3)) by (destruct HP as [M|M]; [exists 2|exists 3]; split; auto).
  destruct S as (s & M & Hs). rewrite !M by lia. 
  split; intros i Hi; unfold mv, mscale; cbn [seq]; rewrite !lsum_cons, lsum_nil, !M by lia; destruct Hs as [-> | ->]; four i Hi; apply C_ext; cbn; ring.
Qed.

Lemma all_gens_bell trot phi Os groups : Forall (fun O => hermitian 4 (a_ent O)) Os -> Forall (Forall (fun P => hermitian 4 (a_ent P) /\ (meq 4 (a_ent P) (pword [2; 2]) \/ meq 4 (a_ent P) (pword [3; 3])))) groups ->
  exists ts, Forall2 (fun A t => bell t A) (all_gens 4 trot phi Os groups) ts /\ rsum (fun x => x) ts = rsum (fun O => rsum (fun P => Im (omega 4 phi (a_ent P) (a_ent O)) * pair_sign P)%R (List.concat groups)) Os.
Proof.
  intros HO Hg. induction HO as [|O Os HO HOs IH]; [exists []; split; [constructor|reflexivity]|]. destruct IH as (ts & H1 & H2).
  assert (Q : exists ts, Forall2 (fun A t => bell t A) (flat_map (gens 4 trot phi (a_ent O)) groups) ts /\ rsum (fun x => x) ts = rsum (fun P => Im (omega 4 phi (a_ent P) (a_ent O)) * pair_sign P)%R (List.concat groups)).
  { clear - HO Hg. induction Hg as [|g groups Hg Hgs IH]; [exists []; split; [constructor|reflexivity]|]. destruct IH as (ts & H1 & H2).
    assert (G : exists ts, Forall2 (fun A t => bell t A) (gens 4 trot phi (a_ent O) g) ts /\ rsum (fun x => x) ts = rsum (fun P => Im (omega 4 phi (a_ent P) (a_ent O)) * pair_sign P)%R g).
    { unfold gens. rewrite Forall_forall in Hg. destruct trot.
      - exists (map (fun P => Im (omega 4 phi (a_ent P) (a_ent O)) * pair_sign P)%R g). split; [|rewrite rsum_map; reflexivity]. clear -HO Hg. induction g as [|P g IH]; cbn [map]; constructor.
        + apply pair_bell; [exact HO|apply Hg; left; reflexivity|apply Hg; left; reflexivity].
        + apply IH. intros P' HP'. apply Hg. right. exact HP'.
      - eexists [_]. split; [constructor; [|constructor]|cbn [rsum]; rewrite Rplus_0_r; reflexivity]. apply bell_msum. intros P HP. apply pair_bell; [exact HO|apply Hg; exact HP|apply Hg; exact HP]. }
    destruct G as (ts' & H1' & H2'). exists (ts' ++ ts). cbn [flat_map List.concat]. split; [apply F2_app; assumption|]. rewrite !rsum_app. congruence. }
  destruct Q as (ts' & H1' & H2'). exists (ts' ++ ts). unfold all_gens. cbn [flat_map rsum]. split; [apply F2_app; assumption|]. rewrite rsum_app. congruence.
Qed.

(** ** The observables *)
Lemma ae_fits : Forall (fits 2) ae_observables.
Proof. repeat constructor; cbn; try discriminate; auto; try lia; intuition lia. Qed.
Lemma ae_hermitian : Forall hermitian_obs ae_observables.
Proof.
  constructor; [|constructor; [|constructor]]; unfold hermitian_obs, hermitian; cbn [q_wires List.length q_matrix]; [change (2 ^ 1) with 2|change (2 ^ 2) with 4]; intros i j Hi Hj.
  - (destruct i as [|[|i]]; [| |lia]); (destruct j as [|[|j]]; [| |lia]); apply C_ext; cbn; ring.
  - four i Hi; four j Hj; apply C_ext; cbn; ring.
Qed.
Lemma ae_gates : Forall (unitary_gate 2) ae_circuit.
Proof. exact ep_gates. Qed.

(** the matrix of X_0 + Y_0 Z_1 *)
Definition ae_table (r c : nat) : C := match r, c with 0, 2 | 3, 1 => (1, -1)%R | 1, 3 | 2, 0 => (1, 1)%R | _, _ => (0, 0)%R end.
Lemma ae_ham : exists G, get_hamiltonian_matrix 2 ae_observables None = Ok G /\ forall r c, r < 4 -> c < 4 -> a_ent G r c = ae_table r c.
Proof.
  destruct (hamiltonian_spec 2 ae_observables None ae_fits) as [A _]. destruct A as (G & EG & _ & _ & M); [cbn; lia|]. exists G. split; [exact EG|].
  intros r c Hr Hc. rewrite (M r c Hr Hc). four r Hr; four c Hc; apply C_ext; cbn; ring.
Qed.
Lemma ae_sum Os : Forall2 (embedded 2) ae_observables Os -> meq 4 (msum a_ent Os) ae_table.
Proof.
  intros HO. destruct ae_ham as (G & EG & MG). destruct (hamiltonian_sum 2 ae_observables Os G ae_fits ae_hermitian HO EG) as [M _]. change (2 ^ 2) with 4 in M. rewrite <- M. exact MG.
Qed.
Lemma ae_cost u t : veq 4 (qnode_state u) (example_state t) -> exact_cost 2 ae_observables u = Ok (sqrt 2 * cos t)%R.
Proof.
  intros Hu.
  assert (Q : exists Fs, Forall2 (fun o F => full 2 o = Ok F) ae_observables Fs /\ Forall2 (embedded 2) ae_observables Fs).
  { pose proof ae_fits as Hf. induction Hf as [|o l Ho _ (Fs & A & B)]; [exists []; split; constructor|]. destruct (obs_one 2 o Ho) as (F & EF & HE & _). exists (F :: Fs). split; constructor; assumption. }
  destruct Q as (Fs & A & B). rewrite (cost_energy 2 _ Fs u A). f_equal. rewrite energy_quad, quad_ip. change (2 ^ 2) with 4.
  rewrite (ip_ext 4 _ (example_state t) _ (mv 4 ae_table (example_state t)) Hu) by (apply mv_ext; [apply ae_sum; exact B|exact Hu]).
  unfold ip, mv. cbn [seq]. rewrite !lsum_cons, !lsum_nil. unfold example_state. set (a := ((t - PI / 4) / 2)%R). cbn.
  assert (Et : cos t = ((cos a * cos a - sin a * sin a) * (/ sqrt 2) - (2 * sin a * cos a) * / sqrt 2)%R).
  { replace t with (2 * a + PI / 4)%R by (unfold a; field). rewrite cos_plus, cos_2a, sin_2a, cos_PI4, sin_PI4. unfold Rdiv. ring. }
  rewrite Et. destruct root2 as [_ P]. field_simplify; [lra|lra].
Qed.
