(** Properties C53, C54, C55: argument validation of the optimizers. *)
From Coq Require Import ZArith Arith Lia Bool String Reals Lra.
From Coquelicot Require Import Coquelicot.
From Verif Require Import Py UtilsModel CircuitModel LayerModel LayerProofs OptimizerModel OptProofs.
From Coq Require Import List.
Import ListNotations.
Local Open Scope nat_scope.
Local Open Scope string_scope.
Local Open Scope list_scope.

(** ** Specification *)

(** the value given for a keyword *)
Definition arg (kw : kwargs) (name : string) : option pyv := option_map snd (find (fun kv => String.eqb (fst kv) name) kw).
(** a keyword that is absent or has an allowed value *)
Definition allowed (kw : kwargs) (name : string) (ok : pyv -> Prop) : Prop := forall v, arg kw name = Some v -> ok v.

(** in Python True is the integer 1 *)
Definition int_from_1 (v : pyv) : Prop := v = PyBool true \/ exists z, v = PyInt z /\ (1 <= z)%Z.
Definition unit_float (v : pyv) : Prop := exists x, v = PyFloat (Fin x) /\ (0 <= x <= 1)%R.
Definition tol_float (v : pyv) : Prop := v = PyFloat PInf \/ exists x, v = PyFloat (Fin x) /\ (0 <= x)%R.
Definition a_float (v : pyv) : Prop := exists x, v = PyFloat x.
Definition boolean (v : pyv) : Prop := exists b, v = PyBool b.

(** the values in effect *)
Definition the_steps (kw : kwargs) : nat := match arg kw "nsteps" with None => 40 | Some (PyInt z) => Z.to_nat z | Some _ => 1 end.
Definition the_eta (kw : kwargs) : R := match arg kw "eta" with Some (PyFloat (Fin x)) => x | _ => (/ 10)%R end.
Definition the_tol (kw : kwargs) : flt := match arg kw "tol" with Some (PyFloat x) => x | _ => Fin (/ 1000)%R end.
Definition the_flag (kw : kwargs) (name : string) : bool := match arg kw name with Some (PyBool b) => b | _ => false end.

(** the calls exact_lie_optimizer is documented to accept *)
Definition ex_accepts (kw : kwargs) : Prop :=
  allowed kw "nsteps" int_from_1 /\ allowed kw "eta" unit_float /\ allowed kw "tol" tol_float /\
  (forall name, In name ["return_state"; "perturbation"; "return_perturbations"; "return_unitary"] -> allowed kw name boolean) /\
  (the_flag kw "return_perturbations" = true -> the_flag kw "perturbation" = true).

(** parameter_shift_optimizer *)
Definition ps_accepts (kw : kwargs) : Prop :=
  allowed kw "nsteps" int_from_1 /\ allowed kw "eta" unit_float /\ allowed kw "tol" tol_float /\
  (forall name, In name ["return_state"; "return_params"] -> allowed kw name boolean).

(** approximate_lie_optimizer *)
Definition ap_accepts (layers : layers_arg) (kw : kwargs) : Prop :=
  (exists l, layers = AList (map Some l)) /\
  allowed kw "nsteps" int_from_1 /\ allowed kw "eta" unit_float /\ allowed kw "tol" (fun v => v = PyNone \/ tol_float v) /\ allowed kw "escape_tol" a_float /\
  (forall name, In name ["return_state"; "return_omegas"; "return_unitary"; "return_gates"; "perturb"; "return_perturbations"; "return_zassenhaus"] -> allowed kw name boolean).

Definition rejection (e : exn) : Prop := e = AssertionError \/ e = TypeError.

(** ** Proofs *)
Lemma kw_get_arg kw name d : kw_get kw name d = match arg kw name with Some v => v | None => d end.
Proof. unfold arg. induction kw as [|[k v] r IH]; [reflexivity|]. simpl. destruct (String.eqb k name); [reflexivity|exact IH]. Qed.

Lemma IZR_1_le z : Rleb 1 (IZR z) = true <-> (1 <= z)%Z.
Proof. rewrite Rleb_true. split; [apply le_IZR|apply (IZR_le 1)]. Qed.

Lemma steps_cases v : (int_from_1 v /\ check (is_int v) (Fin 1) v PInf = Ok tt) \/ (~ int_from_1 v /\ exists e, rejection e /\ check (is_int v) (Fin 1) v PInf = Err e).
Proof.
  unfold check, between, rejection. destruct v as [z|b|x| |s|b]; cbn [number is_int bind fle andb].
  - destruct (Rleb 1 (IZR z)) eqn:E; cbn [andb py_assert bind].
    + left. split; [|reflexivity]. right. exists z. split; [reflexivity|]. apply IZR_1_le. exact E.
    + right. split; [|eauto]. intros [H|(z' & H & Hz)]; [discriminate|]. injection H as <-. apply IZR_1_le in Hz. congruence.
  - destruct b.
    + left. split; [left; reflexivity|]. rewrite (proj2 (Rleb_true 1 1)) by lra. reflexivity.
    + right. split; [intros [H|(z & H & _)]; discriminate|]. destruct (Rleb 1 0) eqn:E; [apply Rleb_true in E; lra|]. cbn. eauto.
  - right. split; [intros [H|(z & H & _)]; discriminate|]. exists AssertionError. split; [left; reflexivity|]. cbn. reflexivity.
  - right. split; [intros [H|(z & H & _)]; discriminate|eauto].
  - right. split; [intros [H|(z & H & _)]; discriminate|eauto].
  - right. split; [intros [H|(z & H & _)]; discriminate|eauto].
Qed.

Lemma eta_cases v : (unit_float v /\ check (is_float v) (Fin 0) v (Fin 1) = Ok tt) \/ (~ unit_float v /\ exists e, rejection e /\ check (is_float v) (Fin 0) v (Fin 1) = Err e).
Proof.
  unfold check, between, rejection. destruct v as [z|b|x| |s|b]; cbn [number is_float bind andb].
  1, 2, 4, 5, 6: right; split; [intros (y & H & _); discriminate|eauto].
  destruct x as [x| | |]; cbn [fle andb].
  - destruct (Rleb 0 x && Rleb x 1) eqn:E; cbn [py_assert bind].
    + left. split; [|reflexivity]. exists x. split; [reflexivity|]. apply andb_true_iff in E. rewrite !Rleb_true in E. exact E.
    + right. split; [|eauto]. intros (y & H & Hy). injection H as <-. apply andb_false_iff in E.
      destruct E as [E|E]; [rewrite (proj2 (Rleb_true 0 x)) in E by lra|rewrite (proj2 (Rleb_true x 1)) in E by lra]; discriminate.
  - right. split; [intros (y & H & _); discriminate|]. cbn. eauto.
  - right. split; [intros (y & H & _); discriminate|]. cbn. eauto.
  - right. split; [intros (y & H & _); discriminate|]. cbn. eauto.
Qed.

Lemma tol_cases b v : (tol_float v /\ check b (Fin 0) v PInf = (if b then Ok tt else Err AssertionError)) \/ (~ tol_float v /\ (is_float v = true -> check b (Fin 0) v PInf = Err AssertionError)).
Proof.
  unfold check, between. destruct v as [z|b'|x| |s|b']; cbn [number is_float bind andb].
  1, 2, 4, 5, 6: right; split; [intros [H|(y & H & _)]; discriminate|discriminate].
  destruct x as [x| | |]; cbn [fle andb].
  - destruct (Rleb 0 x) eqn:E; cbn [andb].
    + left. split; [|destruct b; reflexivity]. right. exists x. split; [reflexivity|]. apply Rleb_true in E. exact E.
    + right. split; [|intros _; rewrite andb_false_r; reflexivity]. intros [H|(y & H & Hy)]; [discriminate|]. injection H as <-. apply Rleb_true in Hy. congruence.
  - left. split; [left; reflexivity|]. destruct b; reflexivity.
  - right. split; [intros [H|(y & H & _)]; discriminate|]. intros _. rewrite andb_false_r. reflexivity.
  - right. split; [intros [H|(y & H & _)]; discriminate|]. intros _. rewrite andb_false_r. reflexivity.
Qed.
Lemma tol_cases' v : (tol_float v /\ check (is_float v) (Fin 0) v PInf = Ok tt) \/ (~ tol_float v /\ exists e, rejection e /\ check (is_float v) (Fin 0) v PInf = Err e).
Proof.
  destruct (tol_cases (is_float v) v) as [[H E]|[H E]].
  - left. split; [exact H|]. rewrite E. destruct H as [->|(x & -> & _)]; reflexivity.
  - right. split; [exact H|]. destruct v as [z|b'|x| |s|b']; cbn [is_float] in *.
    3: exists AssertionError; split; [left; reflexivity|apply E; reflexivity].
    all: unfold check, between; cbn [number bind andb]; first [exists TypeError; split; [right; reflexivity|reflexivity] | exists AssertionError; split; [left; reflexivity|reflexivity]].
Qed.

Lemma bool_cases v : (boolean v /\ py_assert (is_bool v) = Ok tt) \/ (~ boolean v /\ py_assert (is_bool v) = Err AssertionError).
Proof. destruct v; cbn; try (right; split; [intros (b' & H); discriminate|reflexivity]). left. split; [eexists; reflexivity|reflexivity]. Qed.

(** absent keywords have allowed defaults *)
Lemma allowed_default kw name (ok : pyv -> Prop) d : ok d -> (allowed kw name ok <-> ok (kw_get kw name d)).
Proof.
  intros Hd. rewrite kw_get_arg. unfold allowed. split.
  - intros H. destruct (arg kw name); auto.
  - intros H v E. rewrite E in H. exact H.
Qed.

Lemma default_steps : int_from_1 (PyInt 40). Proof. right. exists 40%Z. split; [reflexivity|lia]. Qed.
Lemma default_eta : unit_float (PyFloat (Fin (/ 10))). Proof. exists (/ 10)%R. split; [reflexivity|lra]. Qed.
Lemma default_tol : tol_float (PyFloat (Fin (/ 1000))). Proof. right. exists (/ 1000)%R. split; [reflexivity|lra]. Qed.
Lemma default_flag : boolean (PyBool false). Proof. exists false. reflexivity. Qed.

Lemma steps_value kw : int_from_1 (kw_get kw "nsteps" (PyInt 40)) -> steps_of (kw_get kw "nsteps" (PyInt 40)) = the_steps kw.
Proof. rewrite kw_get_arg. unfold the_steps. destruct (arg kw "nsteps") as [v|]; [|reflexivity]. intros [->|(z & -> & _)]; reflexivity. Qed.
Lemma eta_value kw : unit_float (kw_get kw "eta" (PyFloat (Fin (/ 10)))) -> real_of (kw_get kw "eta" (PyFloat (Fin (/ 10)))) = the_eta kw.
Proof. rewrite kw_get_arg. unfold the_eta. destruct (arg kw "eta") as [v|]; [|reflexivity]. intros (x & -> & _); reflexivity. Qed.
Lemma tol_value kw : tol_float (kw_get kw "tol" (PyFloat (Fin (/ 1000)))) -> flt_of (kw_get kw "tol" (PyFloat (Fin (/ 1000)))) = the_tol kw.
Proof. rewrite kw_get_arg. unfold the_tol. destruct (arg kw "tol") as [v|]; [|reflexivity]. intros [->|(x & -> & _)]; reflexivity. Qed.
Lemma flag_value kw name : boolean (kw_get kw name (PyBool false)) -> truthy (kw_get kw name (PyBool false)) = the_flag kw name.
Proof. rewrite kw_get_arg. unfold the_flag. destruct (arg kw name) as [v|]; [|reflexivity]. intros (b & ->); reflexivity. Qed.

Ltac reject := let e := fresh in intros e; right; split; [intros HH; apply e; tauto|].

Lemma ex_cases kw : (ex_accepts kw /\ ex_validate RetState kw =
    Ok (mkex (the_steps kw) (the_eta kw) (the_tol kw) (the_flag kw "return_state") (the_flag kw "perturbation") (the_flag kw "return_perturbations") (the_flag kw "return_unitary"))) \/
  (~ ex_accepts kw /\ exists e, rejection e /\ ex_validate RetState kw = Err e).
Proof.
  unfold ex_validate. cbn [bind].
  set (v1 := kw_get kw "nsteps" (PyInt 40)). set (v2 := kw_get kw "eta" _). set (v3 := kw_get kw "tol" _). set (v4 := kw_get kw "return_state" _).
  set (v5 := kw_get kw "perturbation" _). set (v6 := kw_get kw "return_perturbations" _). set (v7 := kw_get kw "return_unitary" _).
  assert (A : ex_accepts kw <-> int_from_1 v1 /\ unit_float v2 /\ tol_float v3 /\ boolean v4 /\ boolean v5 /\ boolean v6 /\ boolean v7 /\
    (the_flag kw "return_perturbations" = true -> the_flag kw "perturbation" = true)).
  { unfold ex_accepts, v1, v2, v3, v4, v5, v6, v7. rewrite (allowed_default _ _ _ _ default_steps), (allowed_default _ _ _ _ default_eta), (allowed_default _ _ _ _ default_tol).
    rewrite <- !(allowed_default _ _ _ _ default_flag). split.
    - intros (H1 & H2 & H3 & H4 & H5). repeat (split; [first [assumption | apply H4; simpl; tauto]|]). exact H5.
    - intros (H1 & H2 & H3 & H4 & H5 & H6 & H7 & H8). repeat (split; [assumption|]). split; [|exact H8]. intros name [<-|[<-|[<-|[<-|[]]]]]; assumption. }
  rewrite A.
  destruct (steps_cases v1) as [[H1 E1]|[H1 (e & He & E1)]]; rewrite E1; cbn [bind]; [|right; split; [tauto|eauto]].
  destruct (eta_cases v2) as [[H2 E2]|[H2 (e & He & E2)]]; rewrite E2; cbn [bind]; [|right; split; [tauto|eauto]].
  destruct (tol_cases' v3) as [[H3 E3]|[H3 (e & He & E3)]]; rewrite E3; cbn [bind]; [|right; split; [tauto|eauto]].
  assert (E4 : check (is_bool v4) (Fin 0) v3 PInf = py_assert (is_bool v4)).
  { destruct (tol_cases (is_bool v4) v3) as [[_ E]|[H _]]; [exact E|tauto]. }
  rewrite E4.
  destruct (bool_cases v4) as [[H4 E5]|[H4 E5]]; rewrite E5; cbn [bind]; [|right; split; [tauto|exists AssertionError; split; [left; reflexivity|reflexivity]]].
  destruct (bool_cases v5) as [[H5 E6]|[H5 E6]]; rewrite E6; cbn [bind]; [|right; split; [tauto|exists AssertionError; split; [left; reflexivity|reflexivity]]].
  pose proof (flag_value kw "perturbation" H5) as F5. fold v5 in F5.
  destruct (bool_cases v6) as [[H6 E7]|[H6 E7]]; rewrite E7.
  2: { right. split; [tauto|]. exists AssertionError. split; [left; reflexivity|]. destruct (truthy v6); [|reflexivity]. destruct (truthy v5); reflexivity. }
  pose proof (flag_value kw "return_perturbations" H6) as F6. fold v6 in F6. rewrite F5, F6.
  destruct (the_flag kw "return_perturbations") eqn:G6; [destruct (the_flag kw "perturbation") eqn:G5|]; cbn [py_assert bind].
  2: { right. split; [intros (_ & _ & _ & _ & _ & _ & _ & H); specialize (H eq_refl); discriminate|]. exists AssertionError. split; [left; reflexivity|reflexivity]. }
  all: destruct (bool_cases v7) as [[H7 E8]|[H7 E8]]; rewrite E8; cbn [bind]; [|right; split; [tauto|exists AssertionError; split; [left; reflexivity|reflexivity]]].
  all: left; split; [repeat (split; [assumption|]); intros; congruence|]; rewrite (steps_value kw H1 : steps_of v1 = _), (eta_value kw H2 : real_of v2 = _), (tol_value kw H3 : flt_of v3 = _), (flag_value kw _ H4 : truthy v4 = _), (flag_value kw _ H7 : truthy v7 = _); reflexivity.
Qed.

Theorem C53_exact_arguments : forall St U P Om Z (ret : circ_ret) (kw : kwargs),
  (ret = RetState /\ ex_accepts kw ->
     forall flow cost state perturb (u0 : U), (forall e u, exists u', flow e u = Ok u') -> (forall u, exists c, cost u = Ok c) -> (forall u, exists s : St, state u = Ok s) ->
     exists r : retval (item St P Om U Z), exact_lie_optimizer flow cost state perturb ret (Ok u0) kw = Ok r) /\
  (~ (ret = RetState /\ ex_accepts kw) -> exists e, rejection e /\
     forall flow cost state perturb start, exact_lie_optimizer (St := St) (P := P) (Om := Om) (U := U) (Z := Z) flow cost state perturb ret start kw = Err e).
Proof.
  intros St U P Om Z ret kw. split.
  - intros [-> Ha] flow cost state perturb u0 T1 T2 T3. unfold exact_lie_optimizer.
    destruct (ex_cases kw) as [[_ E]|[Hn _]]; [|contradiction]. rewrite E. cbn [bind]. unfold ex_run. set (a := mkex _ _ _ _ _ _ _).
    destruct (T2 u0) as (c & Ec). destruct (T3 u0) as (s & Es).
    assert (Ess : exists ss, (if ex_state a then do s <- state u0; Ok [s] else Ok []) = Ok ss) by (rewrite Es; destruct (ex_state a); eexists; reflexivity).
    destruct Ess as (ss & Ess). rewrite Ess, Ec. cbn [bind].
    destruct (for_range_total (ex_body flow cost state perturb a) (ex_core flow cost state perturb a u0)) with (k := ex_nsteps a) (i := 0) (v := mkexv u0 [c] ss []) as (v & Ev).
    + intros i v Hv. eapply ex_body_total; eauto.
    + intros i v v' Hv Eb. exact (proj1 (ex_body_core flow cost state perturb a u0 i v v' false Hv Eb)).
    + apply ex_core_init; auto.
    + rewrite Ev. cbn [bind]. destruct (Nat.ltb _ 1); eauto.
  - intros Hn. destruct ret.
    + destruct (ex_cases kw) as [[Ha _]|[_ (e & He & E)]]; [tauto|]. exists e. split; [exact He|]. intros. unfold exact_lie_optimizer. rewrite E. reflexivity.
    + exists AssertionError. split; [left; reflexivity|]. reflexivity.
    + exists AssertionError. split; [left; reflexivity|]. reflexivity.
Qed.
Print Assumptions C53_exact_arguments.

(** seven steps with a perturbation and its report; and rejected variants: a float
    number of steps, an eta above 1, a report without perturbation *)
Example C53_case : ex_accepts [("nsteps", PyInt 7); ("perturbation", PyBool true); ("return_perturbations", PyBool true)] /\
  ~ ex_accepts [("nsteps", PyFloat (Fin 7))] /\ ~ ex_accepts [("eta", PyFloat (Fin 2))] /\ ~ ex_accepts [("return_perturbations", PyBool true)].
Proof.
  split; [|split; [|split]].
  - unfold ex_accepts, allowed, arg. cbn. split; [intros v H; injection H as <-; right; exists 7%Z; split; [reflexivity|lia]|]. split; [intros v H; discriminate|]. split; [intros v H; discriminate|].
    split; [|intros _; reflexivity]. intros name [<-|[<-|[<-|[<-|[]]]]] v H; cbn in H; try discriminate; injection H as <-; eexists; reflexivity.
  - intros (H & _). destruct (H _ eq_refl) as [E|(z & E & _)]; discriminate.
  - intros (_ & H & _). destruct (H _ eq_refl) as (x & E & Hx). injection E as <-. lra.
  - intros (_ & _ & _ & _ & H). specialize (H eq_refl). discriminate.
Qed.

(** ** parameter_shift_optimizer *)

(** what is checked: everything but return_params *)
Definition ps_checked (kw : kwargs) : Prop :=
  allowed kw "nsteps" int_from_1 /\ allowed kw "eta" unit_float /\ allowed kw "tol" tol_float /\ allowed kw "return_state" boolean.

Lemma ps_cases kw : (ps_checked kw /\ ps_validate RetPlain kw =
    Ok (mkps (the_steps kw) (the_eta kw) (the_tol kw) (the_flag kw "return_state") (kw_get kw "return_params" (PyBool false)))) \/
  (~ ps_checked kw /\ exists e, rejection e /\ ps_validate RetPlain kw = Err e).
Proof.
  unfold ps_validate, ps_checked. cbn [bind].
  rewrite (allowed_default _ _ _ _ default_steps), (allowed_default _ _ _ _ default_eta), (allowed_default _ _ _ _ default_tol), (allowed_default _ _ _ _ default_flag).
  set (v1 := kw_get kw "nsteps" (PyInt 40)). set (v2 := kw_get kw "eta" _). set (v3 := kw_get kw "tol" _). set (v4 := kw_get kw "return_state" _).
  destruct (steps_cases v1) as [[H1 E1]|[H1 (e & He & E1)]]; rewrite E1; cbn [bind]; [|right; split; [tauto|eauto]].
  destruct (eta_cases v2) as [[H2 E2]|[H2 (e & He & E2)]]; rewrite E2; cbn [bind]; [|right; split; [tauto|eauto]].
  destruct (tol_cases' v3) as [[H3 E3]|[H3 (e & He & E3)]]; rewrite E3; cbn [bind]; [|right; split; [tauto|eauto]].
  destruct (bool_cases v4) as [[H4 E5]|[H4 E5]]; rewrite E5; cbn [bind]; [|right; split; [tauto|exists AssertionError; split; [left; reflexivity|reflexivity]]].
  left. split; [tauto|]. rewrite (steps_value kw H1 : steps_of v1 = _), (eta_value kw H2 : real_of v2 = _), (tol_value kw H3 : flt_of v3 = _), (flag_value kw _ H4 : truthy v4 = _). reflexivity.
Qed.

(** the operations of an optimization with parameters always succeed *)
Definition ps_total {St P} (descend : R -> P -> res P) (cost : P -> res R) (state : P -> res St) : Prop :=
  (forall e p, exists p', descend e p = Ok p') /\ (forall p, exists c, cost p = Ok c) /\ (forall p, exists s, state p = Ok s).

Lemma ps_loop_total {St P} descend cost (state : P -> res St) a p0 : ps_total descend cost state ->
  exists c ss v, cost p0 = Ok c /\ (if ps_state a then do s <- state p0; Ok [s] else Ok []) = Ok ss /\
    for_range (ps_body descend cost state a) 0 (ps_nsteps a) (mkpsv p0 [c] ss (if truthy (ps_params a) then [p0] else [])) = Ok v.
Proof.
  intros (T1 & T2 & T3). destruct (T2 p0) as (c & Ec). destruct (T3 p0) as (s & Es).
  assert (Ess : exists ss, (if ps_state a then do s <- state p0; Ok [s] else Ok []) = Ok ss) by (rewrite Es; destruct (ps_state a); eexists; reflexivity).
  destruct Ess as (ss & Ess).
  destruct (for_range_total (ps_body descend cost state a) (ps_core descend cost state a p0)) with (k := ps_nsteps a) (i := 0) (v := mkpsv p0 [c] ss (if truthy (ps_params a) then [p0] else [])) as (v & Ev).
  - intros i v Hv. eapply ps_body_total; eauto.
  - intros i v v' Hv Eb. exact (proj1 (ps_body_core descend cost state a p0 i v v' false Hv Eb)).
  - apply ps_core_init; auto.
  - exists c, ss, v. auto.
Qed.

Theorem C54_shift_arguments_partial : forall St P Om U Z (ret : circ_ret) (kw : kwargs),
  (ret = RetPlain /\ ps_accepts kw ->
     forall descend cost state (p0 : P), ps_total descend cost state ->
     exists r : retval (item St P Om U Z), parameter_shift_optimizer descend cost state ret p0 kw = Ok r) /\
  (~ (ret = RetPlain /\ ps_checked kw) -> exists e, (rejection e \/ e = AttributeError) /\
     forall descend cost state p0, parameter_shift_optimizer (St := St) (P := P) (Om := Om) (U := U) (Z := Z) descend cost state ret p0 kw = Err e).
Proof.
  intros St P Om U Z ret kw. split.
  - intros [-> (A1 & A2 & A3 & A4)] descend cost state p0 T. unfold parameter_shift_optimizer.
    assert (Hb : boolean (kw_get kw "return_params" (PyBool false))) by (apply (proj1 (allowed_default kw "return_params" boolean _ default_flag)), A4; simpl; tauto).
    destruct (ps_cases kw) as [[_ E]|[Hn _]].
    2: { exfalso. apply Hn. unfold ps_checked. repeat (split; [assumption|]). apply A4. simpl; tauto. }
    rewrite E. cbn [bind]. set (a := mkps _ _ _ _ _). unfold ps_run. destruct (ps_loop_total descend cost state a p0 T) as (c & ss & v & Ec & Es & Ev).
    rewrite Es. cbn [bind]. rewrite Ec. cbn [bind]. rewrite Ev. cbn [bind]. destruct Hb as (b & Hb). unfold a. cbn [ps_params ps_state]. rewrite Hb. cbn [sum_below_one number].
    destruct b; cbn [bind]; destruct (Rlt_dec _ _); eauto.
  - intros Hn. destruct ret.
    + exists AttributeError. split; [right; reflexivity|]. reflexivity.
    + exists AttributeError. split; [right; reflexivity|]. reflexivity.
    + destruct (ps_cases kw) as [[Ha _]|[_ (e & He & E)]]; [tauto|]. exists e. split; [left; exact He|]. intros. unfold parameter_shift_optimizer. rewrite E. reflexivity.
Qed.
Print Assumptions C54_shift_arguments_partial.

(** return_params is never checked: the integer 2 is accepted, and a string is
    rejected only after the whole optimization (a failing cost comes first) *)
Theorem C54_shift_arguments_refuted : forall St P Om U Z,
  (exists kw, ~ ps_accepts kw /\ forall descend cost state (p0 : P), ps_total descend cost state ->
     exists r : retval (item St P Om U Z), parameter_shift_optimizer descend cost state RetPlain p0 kw = Ok r) /\
  (exists kw, ~ ps_accepts kw /\
     (forall descend cost state p0, ps_total descend cost state -> parameter_shift_optimizer (St := St) (P := P) (Om := Om) (U := U) (Z := Z) descend cost state RetPlain p0 kw = Err TypeError) /\
     (forall descend state p0 e, parameter_shift_optimizer (St := St) (P := P) (Om := Om) (U := U) (Z := Z) descend (fun _ => Err e) state RetPlain p0 kw = Err e)).
Proof.
  intros St P Om U Z. split.
  - exists [("return_params", PyInt 2)]. split.
    { intros (_ & _ & _ & H). destruct (H "return_params" (or_intror (or_introl eq_refl)) _ eq_refl) as (b & E). discriminate. }
    intros descend cost state p0 T. unfold parameter_shift_optimizer. destruct (ps_cases [("return_params", PyInt 2)]) as [[_ E]|[Hn _]].
    2: { exfalso. apply Hn. unfold ps_checked, allowed, arg. cbn. repeat split; intros v H; discriminate. }
    rewrite E. cbn [bind]. set (a := mkps _ _ _ _ _). unfold ps_run. destruct (ps_loop_total descend cost state a p0 T) as (c & ss & v & Ec & Es & Ev).
    rewrite Es. cbn [bind]. rewrite Ec. cbn [bind]. rewrite Ev. cbn [bind]. unfold a. cbn [ps_params ps_state]. cbn [kw_get find fst snd String.eqb].
    cbn -[Rlt_dec]. destruct (Rlt_dec _ _); eauto.
  - exists [("return_params", PyStr "yes")]. split.
    { intros (_ & _ & _ & H). destruct (H "return_params" (or_intror (or_introl eq_refl)) _ eq_refl) as (b & E). discriminate. }
    destruct (ps_cases [("return_params", PyStr "yes")]) as [[_ E]|[Hn _]].
    2: { exfalso. apply Hn. unfold ps_checked, allowed, arg. cbn. repeat split; intros v H; discriminate. }
    split.
    + intros descend cost state p0 T. unfold parameter_shift_optimizer. rewrite E. cbn [bind]. set (a := mkps _ _ _ _ _). unfold ps_run.
      destruct (ps_loop_total descend cost state a p0 T) as (c & ss & v & Ec & Es & Ev). rewrite Es. cbn [bind]. rewrite Ec. cbn [bind]. rewrite Ev. reflexivity.
    + intros descend state p0 e. unfold parameter_shift_optimizer. rewrite E. reflexivity.
Qed.
Print Assumptions C54_shift_arguments_refuted.

Example C54_case : ps_accepts [("eta", PyFloat (Fin (1 / 2))); ("return_params", PyBool true)] /\ ~ ps_checked [("tol", PyNone)] /\ ps_checked [("return_params", PyInt 2)].
Proof.
  split; [|split].
  - unfold ps_accepts, allowed, arg. cbn. split; [intros v H; discriminate|]. split; [intros v H; injection H as <-; exists (1 / 2)%R; split; [reflexivity|lra]|]. split; [intros v H; discriminate|].
    intros name [<-|[<-|[]]] v H; cbn in H; try discriminate; injection H as <-; eexists; reflexivity.
  - intros (_ & _ & H & _). destruct (H _ eq_refl) as [E|(x & E & _)]; discriminate.
  - unfold ps_checked, allowed, arg. cbn. repeat split; intros v H; discriminate.
Qed.

(** ** approximate_lie_optimizer *)

Lemma flag_cases kw name : (boolean (kw_get kw name (PyBool false)) /\ flag kw name = Ok (the_flag kw name)) \/ (~ boolean (kw_get kw name (PyBool false)) /\ flag kw name = Err AssertionError).
Proof.
  unfold flag. destruct (bool_cases (kw_get kw name (PyBool false))) as [[H E]|[H E]]; rewrite E; cbn [bind].
  - left. split; [exact H|]. rewrite (flag_value kw name H). reflexivity.
  - right. split; [exact H|reflexivity].
Qed.

(** the tolerance in effect *)
Definition the_opt_tol (kw : kwargs) : option flt := match arg kw "tol" with Some PyNone => None | _ => Some (the_tol kw) end.
(** the layer objects of the argument *)
Definition the_layers (layers : layers_arg) (ls : list nat) : Prop := layers = AList (map Some ls).

Lemma opt_tol_cases kw : let v := kw_get kw "tol" (PyFloat (Fin (/ 1000))) in
  let c := match v with PyNone => Ok tt | _ => check (is_float v) (Fin 0) v PInf end in
  ((v = PyNone \/ tol_float v) /\ c = Ok tt /\ match v with PyNone => None | _ => Some (flt_of v) end = the_opt_tol kw) \/ (~ (v = PyNone \/ tol_float v) /\ exists e, rejection e /\ c = Err e).
Proof.
  intros v c. assert (V : (v = PyNone -> the_opt_tol kw = None) /\ (tol_float v -> the_opt_tol kw = Some (flt_of v))).
  { unfold v, the_opt_tol, the_tol. rewrite kw_get_arg. destruct (arg kw "tol") as [x|].
    - split; [intros ->; reflexivity|]. intros [->|(y & -> & _)]; reflexivity.
    - split; [discriminate|reflexivity]. }
  destruct V as (V1 & V2).
  destruct (tol_cases' v) as [[H E]|[H (e & He & E)]].
  - left. split; [auto|]. rewrite V2 by auto. unfold c. destruct H as [Hv|(x & Hv & _)]; rewrite Hv in *; auto.
  - unfold c. destruct v eqn:Ev; try (right; split; [intros [?|?]; [discriminate|contradiction]|exists e; split; assumption]).
    left. split; [auto|]. split; [reflexivity|]. rewrite V1; auto.
Qed.

Lemma all_some (l : list (option nat)) : forallb (fun x => match x with Some _ => true | None => false end) l = true <-> exists ls, l = map Some ls.
Proof.
  induction l as [|[x|] l IH]; simpl.
  - split; [exists []; reflexivity|reflexivity].
  - rewrite IH. split; intros (ls & E); [exists (x :: ls); rewrite E; reflexivity|]. destruct ls as [|y ls]; [discriminate|]. injection E as _ E. eauto.
  - split; [discriminate|]. intros ([|y ls] & E); discriminate.
Qed.
Lemma somes_map ls : List.concat (map (fun x : option nat => match x with Some i => [i] | None => [] end) (map Some ls)) = ls.
Proof. induction ls; simpl; congruence. Qed.

Lemma ap_cases layers kw :
  (ap_accepts layers kw /\ exists ls, the_layers layers ls /\ ap_validate RetState layers kw =
    Ok (mkap ls (the_steps kw) (the_eta kw) (the_opt_tol kw) (the_flag kw "return_state") (the_flag kw "return_omegas") (the_flag kw "return_unitary") (the_flag kw "return_gates")
             (the_flag kw "perturb") (the_flag kw "return_perturbations") (the_flag kw "return_zassenhaus"))) \/
  (~ ap_accepts layers kw /\ exists e, rejection e /\ ap_validate RetState layers kw = Err e).
Proof.
  unfold ap_validate. cbn [bind].
  assert (A : ap_accepts layers kw <-> (exists ls, the_layers layers ls) /\ int_from_1 (kw_get kw "nsteps" (PyInt 40)) /\ unit_float (kw_get kw "eta" (PyFloat (Fin (/ 10)))) /\
     (kw_get kw "tol" (PyFloat (Fin (/ 1000))) = PyNone \/ tol_float (kw_get kw "tol" (PyFloat (Fin (/ 1000))))) /\ a_float (kw_get kw "escape_tol" (PyFloat (Fin (/ 1000)))) /\
     boolean (kw_get kw "return_state" (PyBool false)) /\ boolean (kw_get kw "return_omegas" (PyBool false)) /\ boolean (kw_get kw "return_unitary" (PyBool false)) /\
     boolean (kw_get kw "return_gates" (PyBool false)) /\ boolean (kw_get kw "perturb" (PyBool false)) /\ boolean (kw_get kw "return_perturbations" (PyBool false)) /\
     boolean (kw_get kw "return_zassenhaus" (PyBool false))).
  { unfold ap_accepts. rewrite (allowed_default _ _ _ _ default_steps), (allowed_default _ _ _ _ default_eta).
    rewrite (allowed_default kw "tol" _ (PyFloat (Fin (/ 1000)))) by (right; apply default_tol).
    rewrite (allowed_default kw "escape_tol" _ (PyFloat (Fin (/ 1000)))) by (eexists; reflexivity).
    rewrite <- !(allowed_default _ _ _ _ default_flag). split.
    - intros (H1 & H2 & H3 & H4 & H5 & H6). repeat (split; [first [assumption | apply H6; simpl; tauto]|]). apply H6; simpl; tauto.
    - intros (H1 & H2 & H3 & H4 & H5 & H6). repeat (split; [assumption|]). intros name Hin. simpl in Hin. intuition; subst; assumption. }
  rewrite A. clear A.
  assert (AE : rejection AssertionError) by (left; reflexivity).
  destruct layers as [|l]; cbn [bind].
  { right. split; [intros ((ls & H) & _); discriminate|eauto]. }
  destruct (forallb _ l) eqn:El; cbn [py_assert bind].
  2: { right. split; [|eauto]. intros ((ls & H) & _). injection H as ->. assert (X : forallb (fun x : option nat => match x with Some _ => true | None => false end) (map Some ls) = true) by (apply all_some; eauto). congruence. }
  apply all_some in El. destruct El as (ls & ->).
  destruct (steps_cases (kw_get kw "nsteps" (PyInt 40))) as [[H1 E1]|[H1 (e & He & E1)]]; rewrite E1; cbn [bind]; [|right; split; [tauto|eauto]].
  destruct (eta_cases (kw_get kw "eta" (PyFloat (Fin (/ 10))))) as [[H2 E2]|[H2 (e & He & E2)]]; rewrite E2; cbn [bind]; [|right; split; [tauto|eauto]].
  destruct (opt_tol_cases kw) as [(H3 & E3 & V3)|[H3 (e & He & E3)]]; cbv zeta in E3; rewrite E3; cbn [bind]; [|right; split; [tauto|eauto]].
  assert (D : (a_float (kw_get kw "escape_tol" (PyFloat (Fin (/ 1000)))) /\ is_float (kw_get kw "escape_tol" (PyFloat (Fin (/ 1000)))) = true) \/ (~ a_float (kw_get kw "escape_tol" (PyFloat (Fin (/ 1000)))) /\ is_float (kw_get kw "escape_tol" (PyFloat (Fin (/ 1000)))) = false)).
  { destruct (kw_get kw "escape_tol" _); cbn; try (right; split; [intros (x' & H); discriminate|reflexivity]). left. split; [eexists; reflexivity|reflexivity]. }
  destruct D as [[H4 E4]|[H4 E4]]; rewrite E4; cbn [py_assert bind]; [|right; split; [tauto|eauto]].
  destruct (flag_cases kw "return_state") as [[F1 G1]|[F1 G1]]; rewrite G1; cbn [bind]; [|right; split; [tauto|eauto]].
  destruct (flag_cases kw "return_omegas") as [[F2 G2]|[F2 G2]]; rewrite G2; cbn [bind]; [|right; split; [tauto|eauto]].
  destruct (flag_cases kw "return_unitary") as [[F3 G3]|[F3 G3]]; rewrite G3; cbn [bind]; [|right; split; [tauto|eauto]].
  destruct (flag_cases kw "return_gates") as [[F4 G4]|[F4 G4]]; rewrite G4; cbn [bind]; [|right; split; [tauto|eauto]].
  destruct (flag_cases kw "perturb") as [[F5 G5]|[F5 G5]]; rewrite G5; cbn [bind]; [|right; split; [tauto|eauto]].
  destruct (flag_cases kw "return_perturbations") as [[F6 G6]|[F6 G6]]; rewrite G6; cbn [bind]; [|right; split; [tauto|eauto]].
  destruct (flag_cases kw "return_zassenhaus") as [[F7 G7]|[F7 G7]]; rewrite G7; cbn [bind]; [|right; split; [tauto|eauto]].
  left. split; [repeat (split; [first [assumption | exists ls; reflexivity]|]); assumption|]. exists ls. split; [reflexivity|].
  rewrite (somes_map ls), (steps_value kw H1), (eta_value kw H2), V3. reflexivity.
Qed.

(** the operations of an optimization with layers always succeed *)
Definition ap_total {St P Om U Z W} (call : nat -> W -> U -> P -> res (U * P * W)) (su_state : nat -> W -> res Z) (directions : nat -> W -> U -> res Om)
  (cost : U -> res R) (state : U -> res St) : Prop :=
  (forall l w u p, exists r, call l w u p = Ok r) /\ (forall l w, exists z, su_state l w = Ok z) /\ (forall l w u, exists o, directions l w u = Ok o) /\
  (forall u, exists c, cost u = Ok c) /\ (forall u, exists s, state u = Ok s).

Lemma ap_loop_total {St P Om U Z W} call (su_state : nat -> W -> res Z) (directions : nat -> W -> U -> res Om) cost (state : U -> res St) perturb a w u0 (p0 : P) :
  ap_layers a <> [] -> ap_total call su_state directions cost state ->
  exists c ss v, cost u0 = Ok c /\ (if ap_state a then do s <- state u0; Ok [s] else Ok []) = Ok ss /\
    for_range (ap_body call su_state directions cost state perturb a) 0 (ap_nsteps a) (mkapv [] w u0 p0 [c] ss [] (if ap_unitary a then [u0] else []) [] []) = Ok v.
Proof.
  intros Hne (T1 & T2 & T3 & T4 & T5). destruct (T4 u0) as (c & Ec). destruct (T5 u0) as (s & Es).
  assert (Ess : exists ss, (if ap_state a then do s <- state u0; Ok [s] else Ok []) = Ok ss) by (rewrite Es; destruct (ap_state a); eexists; reflexivity).
  destruct Ess as (ss & Ess).
  destruct (for_range_total (ap_body call su_state directions cost state perturb a) (ap_core call su_state directions cost state perturb a w u0 p0))
    with (k := ap_nsteps a) (i := 0) (v := mkapv [] w u0 p0 [c] ss ([] : list Om) (if ap_unitary a then [u0] else []) ([] : list nat) ([] : list Z)) as (v & Ev).
  - intros i v Hv. eapply ap_body_total; eauto.
  - intros i v v' Hv Eb. exact (proj1 (ap_body_core call su_state directions cost state perturb a w u0 p0 Hne i v v' false Hv Eb)).
  - apply ap_core_init; auto.
  - exists c, ss, v. auto.
Qed.

Theorem C55_approximate_arguments : forall St P Om U Z W (ret : circ_ret) (layers : layers_arg) (kw : kwargs),
  (ret = RetState /\ ap_accepts layers kw -> layers <> AList [] ->
     forall call su_state directions cost state perturb (w : W) (u0 : U) (p0 : P), ap_total call su_state directions cost state ->
     exists r : retval (item St P Om U Z), approximate_lie_optimizer call su_state directions cost state perturb ret layers w (Ok u0) p0 kw = Ok r) /\
  (~ (ret = RetState /\ ap_accepts layers kw) -> exists e, rejection e /\
     forall call su_state directions cost state perturb w start p0,
       approximate_lie_optimizer (St := St) (P := P) (Om := Om) (U := U) (Z := Z) (W := W) call su_state directions cost state perturb ret layers w start p0 kw = Err e).
Proof.
  intros St P Om U Z W ret layers kw. split.
  - intros [-> Ha] Hne call su_state directions cost state perturb w u0 p0 T. unfold approximate_lie_optimizer.
    destruct (ap_cases layers kw) as [[_ (ls & Hl & E)]|[Hn _]]; [|contradiction]. rewrite E. cbn [bind]. set (a := mkap _ _ _ _ _ _ _ _ _ _ _). unfold ap_run.
    assert (Hls : ap_layers a <> []). { intros H. apply Hne. rewrite Hl. unfold a in H. cbn in H. rewrite H. reflexivity. }
    destruct (ap_loop_total call su_state directions cost state perturb a w u0 p0 Hls T) as (c & ss & v & Ec & Es & Ev).
    rewrite Es. cbn [bind]. rewrite Ec. cbn [bind]. rewrite Ev. cbn [bind]. destruct (Nat.ltb _ 1); eauto.
  - intros Hn. destruct ret.
    + destruct (ap_cases layers kw) as [[Ha _]|[_ (e & He & E)]]; [tauto|]. exists e. split; [exact He|]. intros. unfold approximate_lie_optimizer. rewrite E. reflexivity.
    + exists AssertionError. split; [left; reflexivity|]. reflexivity.
    + exists AssertionError. split; [left; reflexivity|]. reflexivity.
Qed.
Print Assumptions C55_approximate_arguments.

(** two layer objects and no tolerance; rejected: a list with something else, a
    tuple, an integer escape_tol *)
Example C55_case : ap_accepts (AList [Some 0; Some 1]) [("tol", PyNone); ("return_gates", PyBool true)] /\
  ~ ap_accepts (AList [Some 0; None]) [] /\ ~ ap_accepts NotAList [] /\ ~ ap_accepts (AList [Some 0]) [("escape_tol", PyInt 1)].
Proof.
  split; [|split; [|split]].
  - unfold ap_accepts, allowed, arg. cbn. split; [exists [0; 1]; reflexivity|]. split; [intros v H; discriminate|]. split; [intros v H; discriminate|].
    split; [intros v H; injection H as <-; left; reflexivity|]. split; [intros v H; discriminate|].
    intros name Hin v H. simpl in Hin. intuition; subst; cbn in H; try discriminate. injection H as <-. eexists. reflexivity.
  - intros ((l & H) & _). destruct l as [|x [|y l]]; discriminate.
  - intros ((l & H) & _). discriminate.
  - intros (_ & _ & _ & _ & H & _). destruct (H _ eq_refl) as (x & E). discriminate.
Qed.
