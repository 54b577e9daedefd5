(** Property C113: what the optimizers return depends on the state prepared by the
    circuit only, up to its global phase. *)
From Coq Require Import ZArith Arith Lia Bool String Reals Lra FunctionalExtensionality.
From Coquelicot Require Import Coquelicot.
From Verif Require Import Py StarRing Matrix Cplx Expm UtilsModel CircuitModel CircuitProofs2 AlgebraModel LayerModel GreedyModel AdaptModel ZasV2Model CommuteModel OptimizerModel FlowModel ShiftModel ApproxModel RedBlueModel PropGreedy PropApprox PropRedBlue.
From Coq Require Import List.
Import ListNotations.
Local Open Scope nat_scope.
Local Open Scope list_scope.

(** ** Specification *)

(** two states of n qubits that differ by a phase *)
Definition same_ray (n : nat) (phi psi : nat -> C) : Prop :=
  exists z, Cmult z (Cconj z) = RtoC 1 /\ forall i, i < 2 ^ n -> psi i = Cmult z (phi i).

(** two calls: both raise the same exception, or both return and [R] relates the results *)
Definition both_ways {A B} (R : A -> B -> Prop) (x : res A) (y : res B) : Prop :=
  match x, y with Ok a, Ok b => R a b | Err e, Err f => e = f | _, _ => False end.

(** entries of the results: numbers are equal, states are related by [RS], unitaries by [RU] *)
Definition item_rel {St St' P Om U U' Z} (RS : St -> St' -> Prop) (RU : U -> U' -> Prop) (x : item St P Om U Z) (y : item St' P Om U' Z) : Prop :=
  match x, y with
  | ItCosts l, ItCosts m => l = m
  | ItStates l, ItStates m => Forall2 RS l m
  | ItParams l, ItParams m => l = m
  | ItOmegas l, ItOmegas m => l = m
  | ItUnitaries l, ItUnitaries m => Forall2 RU l m
  | ItUnitary u, ItUnitary v => RU u v
  | ItGates, ItGates => True
  | ItPerturbations l, ItPerturbations m => l = m
  | ItZassenhaus l, ItZassenhaus m => l = m
  | _, _ => False
  end.
Definition result_rel {St St' P Om U U' Z} (RS : St -> St' -> Prop) (RU : U -> U' -> Prop) (x : retval (item St P Om U Z)) (y : retval (item St' P Om U' Z)) : Prop :=
  match x, y with
  | RList cs, RList cs' => cs = cs'
  | RTuple l, RTuple m => Forall2 (item_rel RS RU) l m
  | _, _ => False
  end.

(** the same costs, omegas, parameters, perturbed steps and labels; the same states up to a phase *)
Definition same_results {P Om Z} (n : nat) : retval (item (nat -> C) P Om (mat C) Z) -> retval (item (nat -> C) P Om (mat C) Z) -> Prop :=
  result_rel (same_ray n) (fun U V => same_ray n (fun i => U i 0) (fun i => V i 0)).

(** the circuits prepare the same state up to a phase *)
Definition same_preparation (n : nat) (gates gates' : list (qop C)) : Prop :=
  both_ways (fun u v => same_ray n (fun i => a_ent u i 0) (fun i => a_ent v i 0)) (circuit_unitary n gates) (circuit_unitary n gates').

(** the number of qubits a layer was built for *)
Definition layer_qubits (o : layer_obj) : nat :=
  match o with
  | OLie n _ => n | OLocal l => lc_n l | OCustom l => cu_n l | OStochastic l => st_n l
  | OSquared _ l | OSU8 _ l => gr_n l | OZassenhaus _ l => za_n l | OAdapt _ l => ad_n l | OZasV2 _ l => v2_n l
  end.

(** ** Relations through the monad *)
Lemma ways_bind {A A' B B'} (R : A -> A' -> Prop) (S : B -> B' -> Prop) x x' f f' : both_ways R x x' -> (forall a a', R a a' -> both_ways S (f a) (f' a')) -> both_ways S (bind x f) (bind x' f').
Proof. destruct x, x'; cbn; intros H H'; try contradiction; auto. Qed.
Lemma ways_refl {A} (x : res A) : both_ways eq x x.
Proof. destruct x; reflexivity. Qed.
Lemma ways_eq {A} (x y : res A) : both_ways eq x y -> x = y.
Proof. destruct x, y; cbn; intros; try contradiction; congruence. Qed.
Lemma ways_foldM {A B B'} (R : B -> B' -> Prop) (f : B -> A -> res B) (f' : B' -> A -> res B') l : (forall b b' a, R b b' -> both_ways R (f b a) (f' b' a)) ->
  forall b b', R b b' -> both_ways R (foldM f l b) (foldM f' l b').
Proof. intros H. induction l as [|a l IH]; intros b b' Hb; cbn; [exact Hb|]. eapply ways_bind; [apply H; exact Hb|]. exact IH. Qed.

Lemma ways_for_range {V V'} (R : V -> V' -> Prop) (body : nat -> V -> res (V * bool)) (body' : nat -> V' -> res (V' * bool)) :
  (forall i v v', R v v' -> both_ways (fun x x' => R (fst x) (fst x') /\ snd x = snd x') (body i v) (body' i v')) ->
  forall k i v v', R v v' -> both_ways R (for_range body i k v) (for_range body' i k v').
Proof.
  intros H k. induction k as [|k IH]; intros i v v' Hv; cbn; [exact Hv|]. eapply ways_bind; [apply H; exact Hv|]. intros (x & b) (x' & b') (H1 & H2). cbn in *. subst b'.
  destruct b; [exact H1|apply IH; exact H1].
Qed.

Lemma select_ways {A B} (R : A -> B -> Prop) l m bs : Forall2 R l m -> Forall2 R (select l bs) (select m bs).
Proof.
  intros H. unfold select. revert bs. induction H as [|x y l m H _ IH]; intros bs; [destruct bs; constructor|]. destruct bs as [|b bs]; [constructor|].
  cbn. destruct b; cbn; [constructor; [exact H|]|]; apply IH.
Qed.

(** ** The optimizers on related operations *)
Section Exact.
Context {St St' P Om U U' Z : Type} (RS : St -> St' -> Prop) (RU : U -> U' -> Prop).
Variables (flow : R -> U -> res U) (cost : U -> res R) (state : U -> res St) (perturb : R -> nat -> U -> U).
Variables (flow' : R -> U' -> res U') (cost' : U' -> res R) (state' : U' -> res St') (perturb' : R -> nat -> U' -> U').
Hypothesis Hflow : forall eta u u', RU u u' -> both_ways RU (flow eta u) (flow' eta u').
Hypothesis Hcost : forall u u', RU u u' -> cost u = cost' u'.
Hypothesis Hstate : forall u u', RU u u' -> both_ways RS (state u) (state' u').
Hypothesis Hperturb : forall eta k u u', RU u u' -> RU (perturb eta k u) (perturb' eta k u').

Let vrel (v : ex_vars (St := St) (U := U)) (v' : ex_vars (St := St') (U := U')) : Prop :=
  RU (ev_u v) (ev_u v') /\ ev_costs v = ev_costs v' /\ Forall2 RS (ev_states v) (ev_states v') /\ ev_perturbations v = ev_perturbations v'.

Lemma ex_ways a i v v' : vrel v v' -> both_ways (fun x x' => vrel (fst x) (fst x') /\ snd x = snd x') (ex_body flow cost state perturb a i v) (ex_body flow' cost' state' perturb' a i v').
Proof.
  intros (Hu & Hc & Hs & Hp). unfold ex_body. eapply ways_bind; [apply Hflow; exact Hu|]. intros w w' Hw.
  apply (ways_bind (Forall2 RS)).
  { destruct (ex_state a); [|exact Hs]. eapply ways_bind; [apply Hstate; exact Hw|]. intros s s' Hss. cbn. apply Forall2_app; [exact Hs|constructor; [exact Hss|constructor]]. }
  intros ss ss' Hss. rewrite <- (Hcost w w' Hw). destruct (cost w) as [c|e]; cbn [bind]; [|reflexivity]. rewrite <- Hc, <- Hp.
  destruct (3 <? i); [|cbn; unfold vrel; cbn; auto]. destruct (from_end _ 1) as [c1|e]; cbn [bind]; [|reflexivity]. destruct (from_end _ 2) as [c2|e]; cbn [bind]; [|reflexivity].
  destruct (isclose (ex_tol a) c1 c2); [|cbn; unfold vrel; cbn; auto]. destruct (ex_perturbation a); cbn; unfold vrel; cbn; auto.
Qed.

Lemma exact_ways ret start start' kw : both_ways RU start start' ->
  both_ways (result_rel RS RU) (exact_lie_optimizer (P := P) (Om := Om) (Z := Z) flow cost state perturb ret start kw) (exact_lie_optimizer (P := P) (Om := Om) (Z := Z) flow' cost' state' perturb' ret start' kw).
Proof.
  intros Hst. unfold exact_lie_optimizer. destruct (ex_validate ret kw) as [a|e]; cbn [bind]; [|reflexivity].
  eapply ways_bind; [exact Hst|]. intros u u' Hu. unfold ex_run. apply (ways_bind (Forall2 RS)).
  { destruct (ex_state a); [|constructor]. eapply ways_bind; [apply Hstate; exact Hu|]. intros s s' Hs. cbn. constructor; [exact Hs|constructor]. }
  intros ss ss' Hss. rewrite <- (Hcost u u' Hu). destruct (cost u) as [c|e]; cbn [bind]; [|reflexivity].
  eapply ways_bind; [apply (ways_for_range vrel _ _ (ex_ways a)); unfold vrel; cbn; auto|].
  intros v v' (Hv & Hc & Hs & Hp). destruct (count_true _ <? 1); cbn [both_ways result_rel]; [exact Hc|].
  apply select_ways. repeat constructor; cbn; auto.
Qed.
End Exact.

Section Approximate.
Context {St St' P Om U U' Z W : Type} (RS : St -> St' -> Prop) (RU : U -> U' -> Prop) (Inv : W -> Prop).
Variables (call : nat -> W -> U -> P -> res (U * P * W)) (su_state : nat -> W -> res Z) (directions : nat -> W -> U -> res Om) (cost : U -> res R) (state : U -> res St) (perturb : R -> nat -> U -> U).
Variables (call' : nat -> W -> U' -> P -> res (U' * P * W)) (directions' : nat -> W -> U' -> res Om) (cost' : U' -> res R) (state' : U' -> res St') (perturb' : R -> nat -> U' -> U').
Hypothesis Hcall : forall l w u u' p, Inv w -> RU u u' ->
  both_ways (fun x x' => RU (fst (fst x)) (fst (fst x')) /\ snd (fst x) = snd (fst x') /\ snd x = snd x' /\ Inv (snd x)) (call l w u p) (call' l w u' p).
Hypothesis Hdir : forall l w u u', Inv w -> RU u u' -> directions l w u = directions' l w u'.
Hypothesis Hcost : forall u u', RU u u' -> cost u = cost' u'.
Hypothesis Hstate : forall u u', RU u u' -> both_ways RS (state u) (state' u').
Hypothesis Hperturb : forall eta k u u', RU u u' -> RU (perturb eta k u) (perturb' eta k u').

Let vrel (v : ap_vars (St := St) (P := P) (Om := Om) (U := U) (Z := Z) (W := W)) (v' : ap_vars (St := St') (P := P) (Om := Om) (U := U') (Z := Z) (W := W)) : Prop :=
  RU (av_u v) (av_u v') /\ av_rest v = av_rest v' /\ av_w v = av_w v' /\ Inv (av_w v) /\ av_params v = av_params v' /\ av_costs v = av_costs v' /\ Forall2 RS (av_states v) (av_states v') /\
  av_omegas v = av_omegas v' /\ Forall2 RU (av_unitaries v) (av_unitaries v') /\ av_perturbations v = av_perturbations v' /\ av_zas v = av_zas v'.

Lemma ap_ways a i v v' : vrel v v' ->
  both_ways (fun x x' => vrel (fst x) (fst x') /\ snd x = snd x') (ap_body call su_state directions cost state perturb a i v) (ap_body call' su_state directions' cost' state' perturb' a i v').
Proof.
  intros (Hu & Hr & Hw & Hi & Hpa & Hc & Hs & Ho & Hus & Hp & Hz). unfold ap_body. rewrite <- Hr, <- Hw, <- Hpa, <- Hc, <- Ho, <- Hp, <- Hz.
  destruct (cycle_next (ap_layers a) (av_rest v)) as [lr|e]; cbn [bind]; [|reflexivity].
  destruct (if ap_zassenhaus a then _ else _) as [zs|e]; cbn [bind]; [|reflexivity].
  eapply ways_bind; [apply Hcall; [exact Hi|exact Hu]|]. intros ((w1 & p1) & o1) ((w2 & p2) & o2) (Hw1 & H2 & H3 & H4). cbn [fst snd] in *. subst p2 o2.
  rewrite <- (Hcost w1 w2 Hw1). destruct (cost w1) as [c|e]; cbn [bind]; [|reflexivity].
  apply (ways_bind (Forall2 RS)).
  { destruct (ap_state a); [|exact Hs]. eapply ways_bind; [apply Hstate; exact Hw1|]. intros s s' Hss. cbn. apply Forall2_app; [exact Hs|constructor; [exact Hss|constructor]]. }
  intros ss ss' Hss. rewrite <- (Hdir (fst lr) o1 w1 w2 H4 Hw1). destruct (if ap_omegas a then _ else _) as [oms|e]; cbn [bind]; [|reflexivity].
  assert (Hus' : Forall2 RU (if ap_unitary a then av_unitaries v ++ [w1] else av_unitaries v) (if ap_unitary a then av_unitaries v' ++ [w2] else av_unitaries v')).
  { destruct (ap_unitary a); [|exact Hus]. apply Forall2_app; [exact Hus|constructor; [exact Hw1|constructor]]. }
  destruct (ap_tol a) as [tol|]; [|cbn; unfold vrel; cbn; intuition]. destruct (8 <? i); [|cbn; unfold vrel; cbn; intuition].
  destruct (from_end _ 1) as [c1|e]; cbn [bind]; [|reflexivity]. destruct (from_end _ 6) as [c2|e]; cbn [bind]; [|reflexivity].
  destruct (isclose tol c1 c2); [|cbn; unfold vrel; cbn; intuition]. destruct (ap_perturb a); cbn; unfold vrel; cbn; intuition.
Qed.

Lemma approximate_ways ret layers w start start' p kw : Inv w -> both_ways RU start start' ->
  both_ways (result_rel RS RU) (approximate_lie_optimizer call su_state directions cost state perturb ret layers w start p kw)
    (approximate_lie_optimizer call' su_state directions' cost' state' perturb' ret layers w start' p kw).
Proof.
  intros Hi Hst. unfold approximate_lie_optimizer. destruct (ap_validate ret layers kw) as [a|e]; cbn [bind]; [|reflexivity].
  eapply ways_bind; [exact Hst|]. intros u u' Hu. unfold ap_run. apply (ways_bind (Forall2 RS)).
  { destruct (ap_state a); [|constructor]. eapply ways_bind; [apply Hstate; exact Hu|]. intros s s' Hs. cbn. constructor; [exact Hs|constructor]. }
  intros ss ss' Hss. rewrite <- (Hcost u u' Hu). destruct (cost u) as [c|e]; cbn [bind]; [|reflexivity].
  eapply ways_bind; [apply (ways_for_range vrel _ _ (ap_ways a))|].
  { unfold vrel; cbn. repeat (split; [now auto|]). split; [destruct (ap_unitary a); constructor; [exact Hu|constructor]|auto]. }
  intros v v' (_ & _ & _ & _ & _ & Hc & Hs & Ho & Hus & Hp & Hz). destruct (count_true _ <? 1); cbn [both_ways result_rel]; [exact Hc|].
  apply select_ways. repeat constructor; cbn; auto.
Qed.
End Approximate.

(** ** Phases *)
Definition col (U : mat C) : nat -> C := fun i => U i 0.
Definition phased (n : nat) (U V : mat C) : Prop := same_ray n (col U) (col V).

Lemma same_ray_refl n phi : same_ray n phi phi.
Proof. exists (RtoC 1). split; [apply C_ext; cbn; ring|]. intros i _. rewrite Cmult_1_l. reflexivity. Qed.

Lemma lsum_eq {A} (f g : A -> C) l : (forall x, In x l -> f x = g x) -> lsum (SR := CStar) f l = lsum (SR := CStar) g l.
Proof. apply lsum_ext. Qed.

Lemma quad_ray n phi psi M : same_ray n phi psi -> quad (2 ^ n) psi M = quad (2 ^ n) phi M.
Proof.
  intros (z & Hz & H). unfold quad. apply lsum_eq. intros i Hi. apply lsum_eq. intros j Hj. apply in_seq in Hi, Hj. rewrite !H by lia. cbn [kmul kconj CStar].
  rewrite Cmult_conj. transitivity (Cmult (Cmult z (Cconj z)) (Cmult (Cmult (Cconj (phi i)) (M i j)) (phi j))); [ring|]. rewrite Hz. ring.
Qed.

Lemma mmul_phased n G U V : phased n U V -> phased n (mmul (SR := CStar) (2 ^ n) G U) (mmul (2 ^ n) G V).
Proof.
  intros (z & Hz & H). exists z. split; [exact Hz|]. intros i _. unfold col, mmul in *. rewrite <- (lsum_scale_l (SR := CStar)). apply lsum_eq. intros k Hk. apply in_seq in Hk. rewrite H by lia. cbn [kmul CStar]. ring.
Qed.

Lemma expval_phased n U V F : phased n U V -> qnode_expval n V F = qnode_expval n U F.
Proof. intros H. unfold qnode_expval. f_equal. apply quad_ray. exact H. Qed.

Lemma omega_ray n phi psi P F : same_ray n phi psi -> omega (2 ^ n) psi P F = omega (2 ^ n) phi P F.
Proof. intros H. apply quad_ray. exact H. Qed.
Lemma fold_left_same {A B} (f g : B -> A -> B) l : (forall b a, f b a = g b a) -> forall b, fold_left f l b = fold_left g l b.
Proof. intros H. induction l as [|a l IH]; intros b; cbn; [reflexivity|]. rewrite H. apply IH. Qed.
Lemma gradient_ray n phi psi obs P : same_ray n phi psi -> gradient n psi obs P = gradient n phi obs P.
Proof. intros H. unfold gradient. apply fold_left_same. intros b o. rewrite (omega_ray n phi psi) by exact H. reflexivity. Qed.
Lemma abs_gradients_ray n phi psi obs t : same_ray n phi psi -> abs_gradients n psi obs t = abs_gradients n phi obs t.
Proof. intros H. unfold abs_gradients. apply map_ext. intros kv. rewrite (gradient_ray n phi psi) by exact H. reflexivity. Qed.
Lemma total_cost_phased n obs U V : phased n U V -> total_cost n obs V = total_cost n obs U.
Proof. intros H. unfold total_cost. apply fold_left_same. intros b o. rewrite (expval_phased n U V) by exact H. reflexivity. Qed.

Lemma rotosolve_phased n P obs U V k : phased n U V -> phased n (fst (rotosolve n P obs U k)) (fst (rotosolve n P obs V k)) /\ snd (rotosolve n P obs U k) = snd (rotosolve n P obs V k).
Proof.
  intros H. unfold rotosolve. cbn [fst snd]. rewrite (total_cost_phased n obs U V H), !(total_cost_phased n obs _ _ (mmul_phased n _ U V H)). split; [apply mmul_phased; exact H|reflexivity].
Qed.

Lemma group_phased svd check trot n eta phi psi F g U V : same_ray n phi psi -> phased n U V ->
  both_ways (phased n) (group_step svd check trot n eta phi F g U) (group_step svd check trot n eta psi F g V).
Proof.
  intros Hr H. unfold group_step. destruct trot.
  - cbn. revert U V H. induction g as [|P g IH]; intros U V H; cbn; [exact H|]. apply IH. rewrite (omega_ray n phi psi) by exact Hr. apply mmul_phased. exact H.
  - destruct g as [|P g]; [reflexivity|]. cbn [both_ways]. rewrite (fold_left_same (fun s P0 => madd s (mscale (omega (2 ^ n) psi (a_ent P0) F) (a_ent P0))) (fun s P0 => madd s (mscale (omega (2 ^ n) phi (a_ent P0) F) (a_ent P0)))).
    + apply mmul_phased. exact H.
    + intros s P0. rewrite (omega_ray n phi psi) by exact Hr. reflexivity.
Qed.

Lemma local_phased svd l U V : phased (lc_n l) U V -> both_ways (phased (lc_n l)) (local_call svd l U) (local_call svd l V).
Proof.
  intros H. unfold local_call. apply ways_foldM; [|exact H]. intros b b' o Hb. apply ways_foldM; [|exact Hb]. intros c c' g Hc. apply group_phased; [exact H|exact Hc].
Qed.
Lemma custom_phased svd l U V : phased (cu_n l) U V -> both_ways (phased (cu_n l)) (custom_call svd l U) (custom_call svd l V).
Proof.
  intros H. unfold custom_call. apply ways_foldM; [|exact H]. intros b b' o Hb. eapply ways_bind; [apply ways_refl|]. intros ps ps' <-. apply group_phased; [exact H|exact Hb].
Qed.
Lemma stochastic_phased svd l U V : phased (st_n l) U V -> both_ways (phased (st_n l)) (stochastic_call svd l U) (stochastic_call svd l V).
Proof.
  intros H. unfold stochastic_call. eapply ways_bind; [apply ways_refl|]. intros ((d & q) & a) ? <-. apply ways_foldM; [|exact H]. intros b b' o Hb.
  eapply ways_bind; [apply ways_refl|]. intros P ? <-. cbn. rewrite (omega_ray (st_n l) (qnode_state U) (qnode_state V)) by exact H. apply mmul_phased. exact Hb.
Qed.
Lemma greedy_phased n t ad obs U V : phased n U V ->
  both_ways (fun x y => fst x = fst y /\ phased n (fst (snd x)) (fst (snd y)) /\ snd (snd x) = snd (snd y)) (greedy_step n t ad obs U) (greedy_step n t ad obs V).
Proof.
  intros H. unfold greedy_step. rewrite (abs_gradients_ray n (qnode_state U) (qnode_state V)) by exact H. eapply ways_bind; [apply ways_refl|]. intros k ? <-.
  eapply ways_bind; [apply ways_refl|]. intros P ? <-. cbn [both_ways fst snd]. split; [reflexivity|]. apply rotosolve_phased. exact H.
Qed.
Definition layer_ways {L} (n : nat) (qubits : L -> nat) (x y : mat C * L) : Prop := phased n (fst x) (fst y) /\ snd x = snd y /\ qubits (snd x) = n.
Lemma squared_phased l U V : phased (gr_n l) U V -> both_ways (layer_ways (gr_n l) gr_n) (squared_call l U) (squared_call l V).
Proof. intros H. unfold squared_call. eapply ways_bind; [apply greedy_phased; exact H|]. intros x y (H1 & H2 & _). cbn. rewrite H1. repeat split. exact H2. Qed.
Lemma su8_phased l U V : phased (gr_n l) U V -> both_ways (layer_ways (gr_n l) gr_n) (su8_call l U) (su8_call l V).
Proof. intros H. unfold su8_call. eapply ways_bind; [apply greedy_phased; exact H|]. intros x y (H1 & H2 & _). cbn. rewrite H1. repeat split. exact H2. Qed.

Lemma foldM_same {A B} (f g : B -> A -> res B) l : (forall b a, f b a = g b a) -> forall b, foldM f l b = foldM g l b.
Proof. intros H. induction l as [|a l IH]; intros b; cbn; [reflexivity|]. rewrite H. destruct (g b a); cbn; [apply IH|reflexivity]. Qed.

Lemma zas_phased ord l U V : phased (za_n l) U V -> both_ways (layer_ways (za_n l) za_n) (zas_call ord l U) (zas_call ord l V).
Proof.
  intros H. unfold zas_call. destruct (za_state l).
  - eapply ways_bind; [apply greedy_phased; exact H|]. intros (k & W & e) (k' & W' & e') (H1 & H2 & H3). cbn in *. subst. repeat split. exact H2.
  - destruct (za_current l) as [cur|]; [|reflexivity]. destruct (za_prev_eta l) as [wa|]; [|reflexivity]. eapply ways_bind; [apply ways_refl|]. intros ? ? _.
    rewrite (foldM_same (cand_step ord (za_n l) (qnode_state V) (za_obs l) (za_su4 l) (za_su8 l) cur) (cand_step ord (za_n l) (qnode_state U) (za_obs l) (za_su4 l) (za_su8 l) cur)).
    + eapply ways_bind; [apply ways_refl|]. intros cs ? <-. eapply ways_bind; [apply ways_refl|]. intros kB ? <-. destruct kB as [(km & B)|]; [|reflexivity].
      eapply ways_bind; [apply ways_refl|]. intros P8 ? <-. eapply ways_bind; [apply ways_refl|]. intros vB ? <-. destruct (Req_EM_T wa 0); [reflexivity|].
      eapply ways_bind; [apply ways_refl|]. intros PB ? <-. cbn. rewrite (gradient_ray (za_n l) (qnode_state U) (qnode_state V)) by exact H. repeat split. apply mmul_phased. exact H.
    + intros c kP. unfold cand_step. destruct (negb _); [reflexivity|]. apply ways_eq. do 4 (eapply ways_bind; [apply ways_refl|]; intros ? ? <-).
      destruct (str_in _ _); [reflexivity|]. eapply ways_bind; [apply ways_refl|]. intros ? ? <-. eapply ways_bind; [apply ways_refl|]. intros ? ? <-. cbn.
      rewrite !(gradient_ray (za_n l) (qnode_state U) (qnode_state V)) by exact H. reflexivity.
Qed.

Lemma phased_refl n U : phased n U U.
Proof. apply same_ray_refl. Qed.
Lemma adapt_phased opt l U V p : phased (ad_n l) U V ->
  both_ways (fun x y => phased (ad_n l) (fst (fst x)) (fst (fst y)) /\ snd (fst x) = snd (fst y) /\ snd x = snd y /\ ad_n (snd x) = ad_n l) (adapt_call opt l U p) (adapt_call opt l V p).
Proof.
  intros H. unfold adapt_call. rewrite (abs_gradients_ray (ad_n l) (qnode_state U) (qnode_state V)) by exact H.
  do 6 (eapply ways_bind; [apply ways_refl|]; intros ? ? <-). cbn. repeat split. apply phased_refl.
Qed.
Lemma v2_phased mi l U V : phased (v2_n l) U V -> both_ways (layer_ways (v2_n l) v2_n) (v2_call mi l U) (v2_call mi l V).
Proof.
  intros H. unfold v2_call. apply (ways_bind eq).
  { apply ways_refl || idtac. match goal with |- both_ways eq (mapM ?f _) (mapM ?g _) => assert (E : f = g) end.
    { apply functional_extensionality. intros kt. rewrite (functional_extensionality (fun P : arr C => gradient (v2_n l) (qnode_state V) (v2_obs l) (a_ent P)) (fun P => gradient (v2_n l) (qnode_state U) (v2_obs l) (a_ent P))) || idtac.
      destruct (dget _ _ _) as [P|]; cbn; [|reflexivity]. rewrite (gradient_ray (v2_n l) (qnode_state U) (qnode_state V)) by exact H. reflexivity. }
    rewrite E. apply ways_refl. }
  intros om ? <-. eapply ways_bind; [apply ways_refl|]. intros W ? <-. destruct (v2_params l) as ((p0 & p1) & p2). destruct (mi _) as ((x0 & x1) & x2). cbn. repeat split. apply phased_refl.
Qed.

Lemma commute_phased fa fh fk rnd k l U V : phased (gr_n l) U V -> both_ways (fun _ _ => False) (commute_call fa fh fk rnd k None l U) (commute_call fa fh fk rnd k None l V).
Proof.
  intros H. unfold commute_call. rewrite (abs_gradients_ray (gr_n l) (qnode_state U) (qnode_state V)) by exact H.
  eapply ways_bind; [apply ways_refl|]. intros (d & es) ? <-. eapply ways_bind; [apply ways_refl|]. intros ed ? <-. reflexivity.
Qed.

Lemma obj_phased x c o U V p : phased (layer_qubits o) U V ->
  both_ways (fun a b => phased (layer_qubits o) (fst (fst a)) (fst (fst b)) /\ snd (fst a) = snd (fst b) /\ snd a = snd b /\ layer_qubits (snd a) = layer_qubits o) (obj_call x c o U p) (obj_call x c o V p).
Proof.
  intros H. destruct o as [n ob|l|l|l|ob l|ob l|ob l|ob l|ob l]; cbn [layer_qubits obj_call] in *.
  - reflexivity.
  - eapply ways_bind; [apply local_phased; exact H|]. intros W W' HW. cbn. auto.
  - eapply ways_bind; [apply custom_phased; exact H|]. intros W W' HW. cbn. auto.
  - eapply ways_bind; [apply stochastic_phased; exact H|]. intros W W' HW. cbn. auto.
  - destruct c.
    + destruct (or_bounds x) as ((fa & fh) & fk). eapply ways_bind; [apply commute_phased; exact H|]. intros ? ? [].
    + eapply ways_bind; [apply squared_phased; exact H|]. intros r r' (H1 & H2 & H3). cbn. rewrite H2 in *. auto.
  - eapply ways_bind; [apply su8_phased; exact H|]. intros r r' (H1 & H2 & H3). cbn. rewrite H2 in *. auto.
  - eapply ways_bind; [apply zas_phased; exact H|]. intros r r' (H1 & H2 & H3). cbn. rewrite H2 in *. auto.
  - eapply ways_bind; [apply adapt_phased; exact H|]. intros ((W & q) & l1) ((W' & q') & l2) (H1 & H2 & H3 & H4). cbn in *. subst. auto.
  - eapply ways_bind; [apply v2_phased; exact H|]. intros r r' (H1 & H2 & H3). cbn. rewrite H2 in *. auto.
Qed.

Lemma su_n_phased n U V obs : phased n U V -> get_all_su_n_directions n V obs = get_all_su_n_directions n U obs.
Proof.
  intros H. unfold get_all_su_n_directions. destruct (mapM _ _) as [fs|]; cbn [bind]; [|reflexivity]. destruct (get_su_n_operators _ _ _) as [(ps & [names|])|]; cbn [bind]; try reflexivity.
  f_equal. apply map_ext. intros pn. f_equal. apply fold_left_same. intros b o. rewrite (quad_ray n (qnode_state U) (qnode_state V)) by exact H. reflexivity.
Qed.
Lemma directions_phased o U V : phased (layer_qubits o) U V -> obj_directions o V = obj_directions o U.
Proof.
  assert (G : forall n obs, phased n U V -> get_lie_algebra_directions n obs V = get_lie_algebra_directions n obs U).
  { intros n obs H. unfold get_lie_algebra_directions. destruct (mapM _ _); cbn [bind]; [|reflexivity]. destruct (mapM _ _); cbn [bind]; [|reflexivity]. apply su_n_phased. exact H. }
  destruct o; cbn [layer_qubits obj_directions]; apply G.
Qed.

Lemma expval_op_phased n U V o : phased n U V -> expval n V o = expval n U o.
Proof. intros H. unfold expval. destruct (full n o); cbn [bind]; [|reflexivity]. rewrite (expval_phased n U V) by exact H. reflexivity. Qed.
Lemma cost_phased n obs U V : phased n U V -> exact_cost n obs U = exact_cost n obs V.
Proof. intros H. unfold exact_cost. apply foldM_same. intros b o. rewrite (expval_op_phased n U V) by exact H. reflexivity. Qed.

Lemma eigh_step_phased eigh n eta H U V : phased n U V -> phased n (eigh_step eigh (2 ^ n) eta H U) (eigh_step eigh (2 ^ n) eta H V).
Proof. intros Hp. unfold eigh_step. destruct (eigh (2 ^ n) H) as (S & W). apply mmul_phased. exact Hp. Qed.
Lemma perturb_phased eigh n random eta k U V : phased n U V -> phased n (random_perturb eigh n random eta k U) (random_perturb eigh n random eta k V).
Proof. apply eigh_step_phased. Qed.

(** the commutator depends on the density matrix only, which has no phase *)
Lemma density_ray n phi psi i j : same_ray n phi psi -> i < 2 ^ n -> j < 2 ^ n -> Cmult (psi i) (Cconj (psi j)) = Cmult (phi i) (Cconj (phi j)).
Proof.
  intros (z & Hz & H) Hi Hj. rewrite !H by assumption. rewrite Cmult_conj. transitivity (Cmult (Cmult z (Cconj z)) (Cmult (phi i) (Cconj (phi j)))); [ring|]. rewrite Hz. ring.
Qed.
Lemma comm_density d (rho rho' : mat C) g : meq d rho rho' -> param_shift_comm d rho g = param_shift_comm d rho' g.
Proof.
  intros H. assert (G : forall A B, mmul (SR := CStar) d A (mmul d rho B) = mmul d A (mmul d rho' B)).
  { intros A B. apply functional_extensionality. intros i. apply functional_extensionality. intros j. unfold mmul. apply lsum_eq. intros k Hk. apply in_seq in Hk. f_equal.
    apply lsum_eq. intros m Hm. apply in_seq in Hm. rewrite (H k m) by lia. reflexivity. }
  unfold param_shift_comm. rewrite !G. reflexivity.
Qed.
Lemma flow_phased eigh n eta obs U V : phased n U V -> both_ways (phased n) (exact_flow eigh n obs eta U) (exact_flow eigh n obs eta V).
Proof.
  intros H. unfold exact_flow. apply ways_foldM; [|exact H]. clear U V H. intros U V o H. unfold flow_step. eapply ways_bind; [apply ways_refl|]. intros F ? <-. cbn [both_ways].
  rewrite (comm_density (2 ^ n) (fun i j => Cmult (qnode_state V i) (Cconj (qnode_state V j))) (fun i j => Cmult (qnode_state U i) (Cconj (qnode_state U j)))).
  - apply eigh_step_phased. exact H.
  - intros i j Hi Hj. apply (density_ray n); assumption.
Qed.

(** ** C113 *)
Theorem C113_exact {P Om Z} eigh random n gates gates' obs ret kw : same_preparation n gates gates' ->
  both_ways (same_results n) (exact_optimizer (P := P) (Om := Om) (Z := Z) eigh random n gates obs ret kw) (exact_optimizer eigh random n gates' obs ret kw).
Proof.
  intros H. unfold exact_optimizer. apply exact_ways.
  - intros eta u u'. apply flow_phased.
  - intros u u'. apply cost_phased.
  - intros u u' Hu. exact Hu.
  - intros eta k u u'. apply perturb_phased.
  - eapply ways_bind; [exact H|]. intros a b Hab. exact Hab.
Qed.
Print Assumptions C113_exact.

Lemma replace_Forall {A} (Q : A -> Prop) l i x : Forall Q l -> Q x -> Forall Q (replace_at l i x).
Proof. intros H Hx. revert i. induction H as [|y l Hy Hl IH]; intros [|i]; cbn; constructor; auto. Qed.

Theorem C113_approximate x eigh random n gates gates' obs w ret layers params kw : Forall (fun o => layer_qubits o = n) w -> same_preparation n gates gates' ->
  both_ways (same_results n) (approx_optimizer x eigh random n gates obs w ret layers params kw) (approx_optimizer x eigh random n gates' obs w ret layers params kw).
Proof.
  intros Hw H. unfold approx_optimizer. apply (approximate_ways _ _ (Forall (fun o => layer_qubits o = n))).
  - intros l v u u' p Hv Hu. unfold store_call. destruct (list_get v l) as [o|e] eqn:Eo; cbn [bind]; [|reflexivity].
    assert (Ho : layer_qubits o = n). { rewrite Forall_forall in Hv. apply Hv. unfold list_get in Eo. destruct (nth_error v l) as [o'|] eqn:En; [|discriminate]. injection Eo as <-. eapply nth_error_In. exact En. }
    subst n. eapply ways_bind; [apply obj_phased; exact Hu|]. intros ((a & b) & c) ((a' & b') & c') (H1 & H2 & H3 & H4). cbn in *. subst. repeat split; [exact H1|]. apply replace_Forall; auto.
  - intros l v u u' Hv Hu. unfold store_directions. destruct (list_get v l) as [o|e] eqn:Eo; cbn [bind]; [|reflexivity].
    assert (Ho : layer_qubits o = n). { rewrite Forall_forall in Hv. apply Hv. unfold list_get in Eo. destruct (nth_error v l) as [o'|] eqn:En; [|discriminate]. injection Eo as <-. eapply nth_error_In. exact En. }
    subst n. symmetry. apply directions_phased. exact Hu.
  - intros u u'. apply cost_phased.
  - intros u u' Hu. exact Hu.
  - intros eta k u u'. apply perturb_phased.
  - exact Hw.
  - eapply ways_bind; [exact H|]. intros a b Hab. eapply ways_bind; [apply ways_refl|]. intros ? ? _. exact Hab.
Qed.
Print Assumptions C113_approximate.

(** two parametrised circuits that prepare the same states up to phases, which may
    depend on the parameters, give the same descent *)
Lemma ps_ways {St St' P} (RS : St -> St' -> Prop) (descend : R -> P -> res P) (cost : P -> res R) (state : P -> res St) (state' : P -> res St') :
  (forall p, both_ways RS (state p) (state' p)) -> forall Om U Z ret p kw (RU : U -> U -> Prop),
  both_ways (result_rel RS RU) (parameter_shift_optimizer (Om := Om) (U := U) (Z := Z) descend cost state ret p kw) (parameter_shift_optimizer descend cost state' ret p kw).
Proof.
  intros H Om U Z ret p kw RU. unfold parameter_shift_optimizer. destruct (ps_validate ret kw) as [a|]; cbn [bind]; [|reflexivity]. unfold ps_run. apply (ways_bind (Forall2 RS)).
  { destruct (ps_state a); [|constructor]. eapply ways_bind; [apply H|]. intros s s' Hs. cbn. constructor; [exact Hs|constructor]. }
  intros ss ss' Hss. destruct (cost p) as [c|e]; cbn [bind]; [|reflexivity].
  eapply ways_bind; [apply (ways_for_range (fun v v' => pv_params v = pv_params v' /\ pv_costs v = pv_costs v' /\ Forall2 RS (pv_states v) (pv_states v') /\ pv_pps v = pv_pps v'))|].
  - intros i v v' (H1 & H2 & H3 & H4). unfold ps_body. rewrite <- H1, <- H2, <- H4. destruct (descend _ _) as [q|e]; cbn [bind]; [|reflexivity]. destruct (cost q) as [d|e]; cbn [bind]; [|reflexivity].
    apply (ways_bind (Forall2 RS)).
    { destruct (ps_state a); [|exact H3]. eapply ways_bind; [apply H|]. intros s s' Hs. cbn. apply Forall2_app; [exact H3|constructor; [exact Hs|constructor]]. }
    intros t t' Ht. destruct (2 <? i); [|cbn; auto]. destruct (from_end _ 1) as [c1|e]; cbn [bind]; [|reflexivity]. destruct (from_end _ 2) as [c2|e]; cbn [bind]; [|reflexivity]. cbn. auto.
  - cbn. auto.
  - intros v v' (H1 & H2 & H3 & H4). destruct (sum_below_one _ _) as [[]|]; cbn [bind both_ways result_rel]; [exact H2| |reflexivity]. apply select_ways. repeat constructor; cbn; auto.
Qed.

Theorem C113_shift {Om Z} n obs circ circ' ret p kw :
  (forall q, both_ways (same_ray n) (vqe_state n circ q) (vqe_state n circ' q)) ->
  both_ways (same_results n) (shift_optimizer (Om := Om) (Z := Z) n obs circ ret p kw) (shift_optimizer n obs circ' ret p kw).
Proof.
  intros H. unfold shift_optimizer. assert (E : vqe_cost n obs circ = vqe_cost n obs circ').
  { apply functional_extensionality. intros q. specialize (H q). unfold vqe_state, vqe_cost in *. apply ways_eq.
    destruct (circ q) as [g|e], (circ' q) as [g'|e']; cbn [bind] in *;
    repeat match goal with |- context [circuit_unitary n ?x] => destruct (circuit_unitary n x) end; cbn [bind both_ways] in *; try contradiction; try exact H.
    rewrite (cost_phased n obs _ _ H). apply ways_refl. }
  rewrite E. apply ps_ways. exact H.
Qed.
Print Assumptions C113_shift.

(** on one qubit: a rotation, and the gate diag(i, 1) before it; the unitaries do not
    differ by a phase but prepare the same state up to the phase i *)
Definition phase_gate : qop C := mkqop (mkarr 2 2 (fun i j => if Nat.eqb i j then (if Nat.eqb i 0 then Ci else RtoC 1) else RtoC 0)) [0].
Definition rotation (t : R) : qop C := gate_qop (ARot t "Y" [0]).
Lemma rotation_unitary t : exists u, circuit_unitary 1 [rotation t] = Ok u /\ a_ent u 0 0 = RtoC (cos (t / 2)) /\ a_ent u 1 0 = RtoC (sin (t / 2)) /\ a_ent u 1 1 = RtoC (cos (t / 2)).
Proof.
  destruct (circuit_unitary_spec 1 [rotation t]) as (U & E & _ & _ & M). { repeat constructor; cbn; try discriminate; auto; try lia. }
  exists U. split; [exact E|]. cbn [map rev app] in M. unfold mprod in M. cbn [fold_right map] in M. change (2 ^ 1)%nat with 2%nat in M. unfold rotation in M. cbn [gate_qop] in M. rewrite !emb1 in M. cbn [a_ent] in M.
  change (word_of "Y") with [2%nat] in M. change (2 ^ List.length [2%nat])%nat with 2%nat in M. rewrite !expm_pauli in M by lia.
  repeat split; rewrite M by lia; unfold mmul, madd, mscale, mid, mit, lsum; cbn; apply C_ext; cbn; field.
Qed.
Lemma phased_rotation_unitary t : exists u, circuit_unitary 1 [phase_gate; rotation t] = Ok u /\ a_ent u 0 0 = Cmult Ci (RtoC (cos (t / 2))) /\ a_ent u 1 0 = Cmult Ci (RtoC (sin (t / 2))) /\ a_ent u 1 1 = RtoC (cos (t / 2)).
Proof.
  destruct (circuit_unitary_spec 1 [phase_gate; rotation t]) as (U & E & _ & _ & M). { repeat constructor; cbn; try discriminate; auto; try lia. }
  exists U. split; [exact E|]. cbn [map rev app] in M. unfold mprod in M. cbn [fold_right map] in M. change (2 ^ 1)%nat with 2%nat in M. unfold rotation in M. cbn [gate_qop] in M. rewrite !emb1 in M. cbn [a_ent] in M.
  change (word_of "Y") with [2%nat] in M. change (2 ^ List.length [2%nat])%nat with 2%nat in M. unfold phase_gate in M. rewrite !emb1 in M. rewrite !expm_pauli in M by lia.
  repeat split; rewrite M by lia; unfold mmul, madd, mscale, mid, mit, lsum; cbn; apply C_ext; cbn; field.
Qed.
Example C113_case t : same_preparation 1 [rotation t] [phase_gate; rotation t] /\
  exists u v, circuit_unitary 1 [rotation t] = Ok u /\ circuit_unitary 1 [phase_gate; rotation t] = Ok v /\ a_ent v 0 0 = Cmult Ci (a_ent u 0 0) /\ a_ent v 1 1 = a_ent u 1 1.
Proof.
  unfold same_preparation. destruct (rotation_unitary t) as (u & -> & u0 & u1 & u2). destruct (phased_rotation_unitary t) as (v & -> & v0 & v1 & v2). split.
  - exists Ci. split; [apply C_ext; cbn; ring|]. intros i Hi. destruct i as [|[|i]]; [rewrite u0, v0; reflexivity|rewrite u1, v1; reflexivity|cbn in Hi; lia].
  - exists u, v. rewrite u0, u2, v0, v2. auto.
Qed.

(** every layer the constructors return, also after set_eta and calls, has the number of
    qubits it was made for *)
Ltac unbind := repeat match goal with H : bind ?x _ = Ok _ |- _ => destruct x eqn:?; cbn [bind] in H; [|discriminate H] | H : (let '(_, _) := ?x in _) = Ok _ |- _ => destruct x | H : Ok _ = Ok _ |- _ => injection H; clear H; intros; subst end.
Lemma call_qubits x c o U p V q o' : obj_call x c o U p = Ok (V, q, o') -> layer_qubits o' = layer_qubits o.
Proof. intros E. pose proof (obj_phased x c o U U p (phased_refl _ _)) as H. rewrite E in H. exact (proj2 (proj2 (proj2 H))). Qed.
Lemma built_qubits x n o : PropApprox.built x n o -> layer_qubits o = n.
Proof.
  induction 1 as [obs Fs E|obs lo eta st ds ch tr l _ _ E|obs ds eta ch tr l _ _ E|obs eta ch l _ E|obs eta l _ E|obs eta b c l _ E|obs eta b c ra l _ E|obs eta l _ _ E|od oS obs eta b c l _ _ _ _ E|eta o _ IH|cm o U p V p' o' _ IH _ E]; cbn [layer_qubits].
  - reflexivity.
  - unfold LocalLieAlgebraLayer in E. unbind. reflexivity.
  - unfold CustomDirectionLieAlgebraLayer in E. unbind. reflexivity.
  - unfold StochasticLieAlgebraLayer in E. unbind. reflexivity.
  - unfold SquaredLieAlgebraLayer in E. unbind. reflexivity.
  - unfold SU8_AlgebraLayer in E. unbind. reflexivity.
  - unfold ZassenhausLayer in E. unbind. reflexivity.
  - unfold AdaptVQELayer in E. unbind. reflexivity.
  - unfold ZassenhausLayerV2 in E. unbind. reflexivity.
  - destruct o; cbn in *; exact IH.
  - rewrite (call_qubits _ _ _ _ _ _ _ _ E). exact IH.
Qed.
Example C113_layers (t : R) x eigh random : exists l, SquaredLieAlgebraLayer 1 rb_observables (1 / 10) = Ok l /\ Forall (fun o => layer_qubits o = 1) [OSquared rb_observables l] /\
  both_ways (same_results 1) (approx_optimizer x eigh random 1 [rotation t] rb_observables [OSquared rb_observables l] RetState (AList [Some 0]) [] [])
    (approx_optimizer x eigh random 1 [phase_gate; rotation t] rb_observables [OSquared rb_observables l] RetState (AList [Some 0]) [] []).
Proof.
  destruct (C48_squared_greedy 1 rb_observables (1 / 10) rb_fits) as (l & Os & table & E & _); [lra|lia|]. exists l. split; [exact E|].
  assert (Q : Forall (fun o => layer_qubits o = 1) [OSquared rb_observables l]). { constructor; [|constructor]. apply (built_qubits x). eapply built_squared; [exact rb_fits|exact E]. }
  split; [exact Q|]. apply C113_approximate; [exact Q|]. apply C113_case.
Qed.

(** the phase must be the same for all entries: with diag(i, 1) after the rotation the
    energy of the observable X changes *)
Example C113_relative_phase : ~ same_ray 1 (fun _ => RtoC 1) (fun i => if Nat.eqb i 0 then Ci else RtoC 1).
Proof.
  intros (z & Hz & H). assert (H0 := H 0 ltac:(cbn; lia)). assert (H1 := H 1 ltac:(cbn; lia)). cbn in H0, H1. rewrite <- H0 in H1. apply (f_equal fst) in H1. cbn in H1. lra.
Qed.
