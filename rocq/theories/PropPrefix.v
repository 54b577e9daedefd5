(** Properties C109 to C112: how the arguments of a run change what it returns:
    nsteps and tol only truncate, the return_* flags only observe, and a run can be
    resumed from what it returned. *)
From Coq Require Import ZArith Arith Lia Bool String Reals Lra.
From Coquelicot Require Import Coquelicot.
From Verif Require Import Py UtilsModel CircuitModel LayerModel LayerProofs OptimizerModel OptProofs PropOptArgs PropOptRun.
From Coq Require Import List.
Import ListNotations.
Local Open Scope string_scope.
Local Open Scope nat_scope.
Local Open Scope list_scope.

(** ** Specification *)

Definition starts_with {A} (l p : list A) : Prop := exists t, l = p ++ t.

(** [b] is at least as permissive a tolerance as [a]; no tolerance is the least *)
Definition looser (a b : option flt) : Prop :=
  match a, b with
  | None, _ => True
  | Some (Fin x), Some (Fin y) => (x <= y)%R
  | Some _, Some PInf => True
  | _, _ => False
  end.

(** both histories were asked for *)
Definition both (kw kw' : kwargs) (name : string) : Prop := the_flag kw name = true /\ the_flag kw' name = true.

(** ** Proofs *)
Definition agree {A} (l m : list A) : Prop := forall k, k < List.length l -> k < List.length m -> nth_error l k = nth_error m k.

Lemma agree_sym {A} (l m : list A) : agree l m -> agree m l.
Proof. intros H k H1 H2. symmetry. apply H; assumption. Qed.

Lemma nth_error_skipn {A} (l : list A) : forall n k, nth_error (skipn n l) k = nth_error l (n + k).
Proof. induction l as [|x l IH]; intros [|n] k; cbn; try reflexivity; [destruct k; reflexivity|apply IH]. Qed.

Lemma list_ext {A} (l m : list A) : (forall k, nth_error l k = nth_error m k) -> l = m.
Proof.
  revert m. induction l as [|x l IH]; intros [|y m] H; [reflexivity|specialize (H 0); discriminate|specialize (H 0); discriminate|].
  f_equal; [specialize (H 0); cbn in H; congruence|]. apply IH. intros k. exact (H (S k)).
Qed.

Lemma agree_starts {A} (l m : list A) : agree l m -> List.length m <= List.length l -> starts_with l m.
Proof.
  intros H Hl. exists (skipn (List.length m) l). apply list_ext. intros k. destruct (Nat.lt_ge_cases k (List.length m)) as [Hk|Hk].
  - rewrite nth_error_app1 by exact Hk. apply H; lia.
  - rewrite nth_error_app2 by exact Hk. rewrite nth_error_skipn. f_equal. lia.
Qed.
Lemma agree_eq {A} (l m : list A) : agree l m -> List.length m = List.length l -> l = m.
Proof.
  intros H Hl. destruct (agree_starts l m H ltac:(lia)) as (t & Ht). subst l. rewrite app_length in Hl. destruct t as [|x t]; [apply app_nil_r|cbn in Hl; lia].
Qed.
Lemma starts_firstn {A} (l p : list A) : starts_with l p -> p = firstn (List.length p) l.
Proof. intros (t & ->). rewrite firstn_app, firstn_all, Nat.sub_diag. cbn. symmetry. apply app_nil_r. Qed.

(** values that are functions of agreeing things *)
Lemma agree_values {A B} (f : A -> B -> Prop) l m cs ds : (forall x c d, f x c -> f x d -> c = d) -> agree l m -> Forall2 f l cs -> Forall2 f m ds -> agree cs ds.
Proof.
  intros Hf Ha H1 H2 k Hk Hk'. pose proof (Forall2_length' _ _ _ H1) as L1. pose proof (Forall2_length' _ _ _ H2) as L2.
  destruct (nth_error cs k) as [c|] eqn:Ec; [|apply nth_error_None in Ec; lia]. destruct (nth_error ds k) as [d|] eqn:Ed; [|apply nth_error_None in Ed; lia].
  specialize (Ha k ltac:(lia) ltac:(lia)). destruct (nth_error l k) as [x|] eqn:Ex; [|apply nth_error_None in Ex; lia]. symmetry in Ha.
  assert (G : forall (l : list A) cs k x c, Forall2 f l cs -> nth_error l k = Some x -> nth_error cs k = Some c -> f x c).
  { clear. intros l cs k x c H. revert k. induction H as [|x0 c0 l cs H _ IH]; intros [|k] E1 E2; cbn in *; try discriminate; [congruence|eauto]. }
  f_equal. apply (Hf x); eauto.
Qed.

(** two runs in which every entry is determined by the entries before *)
Lemma chains_agree {A B} (f : A -> B -> Prop) (step step' : nat -> A -> A -> Prop) l m cs ds :
  (forall x c d, f x c -> f x d -> c = d) -> Forall2 f l cs -> Forall2 f m ds ->
  (forall x y, nth_error l 0 = Some x -> nth_error m 0 = Some y -> x = y) -> chain step l -> chain step' m ->
  (forall k x y z, S k < List.length cs -> S k < List.length ds -> (forall i, i <= k -> nth_error cs i = nth_error ds i) -> step k x y -> step' k x z -> y = z) ->
  agree l m /\ agree cs ds.
Proof.
  intros Hf F1 F2 H0 C1 C2 Hs. pose proof (Forall2_length' _ _ _ F1) as L1. pose proof (Forall2_length' _ _ _ F2) as L2.
  assert (G : forall (l : list A) cs k x c, Forall2 f l cs -> nth_error l k = Some x -> nth_error cs k = Some c -> f x c).
  { clear. intros l cs k x c H. revert k. induction H as [|x0 c0 l cs H _ IH]; intros [|k] E1 E2; cbn in *; try discriminate; [congruence|eauto]. }
  assert (K : forall n k, k <= n -> k < List.length l -> k < List.length m -> nth_error l k = nth_error m k /\ nth_error cs k = nth_error ds k).
  { assert (V : forall k, k < List.length l -> k < List.length m -> nth_error l k = nth_error m k -> nth_error cs k = nth_error ds k).
    { intros k Hk Hk' E. destruct (nth_error cs k) as [c|] eqn:Ec; [|apply nth_error_None in Ec; lia]. destruct (nth_error ds k) as [d|] eqn:Ed; [|apply nth_error_None in Ed; lia].
      destruct (nth_error l k) as [x|] eqn:Ex; [|apply nth_error_None in Ex; lia]. symmetry in E. f_equal. apply (Hf x); eauto. }
    induction n as [|n IH]; intros k Hk H1 H2.
    - assert (k = 0) by lia. subst k. assert (E : nth_error l 0 = nth_error m 0).
      { destruct (nth_error l 0) as [x|] eqn:Ex; [|apply nth_error_None in Ex; lia]. destruct (nth_error m 0) as [y|] eqn:Ey; [|apply nth_error_None in Ey; lia]. f_equal. apply H0; reflexivity. }
      split; [exact E|apply V; assumption].
    - destruct (Nat.eq_dec k (S n)) as [->|Hn]; [|apply IH; lia]. destruct (IH n (le_n n) ltac:(lia) ltac:(lia)) as (E & _).
      destruct (nth_error l n) as [x|] eqn:Ex; [|apply nth_error_None in Ex; lia]. symmetry in E.
      assert (E' : nth_error l (S n) = nth_error m (S n)).
      { destruct (nth_error l (S n)) as [y|] eqn:Ey; [|apply nth_error_None in Ey; lia]. destruct (nth_error m (S n)) as [z|] eqn:Ez; [|apply nth_error_None in Ez; lia]. f_equal.
        apply (Hs n x y z); [lia|lia| |exact (C1 n x y Ex Ey)|exact (C2 n x z E Ez)]. intros i Hi. apply IH; lia. }
      split; [exact E'|apply V; assumption]. }
  split; intros k H1 H2; apply (K k k (le_n k)); lia.
Qed.

Lemma stalls_ext warm lag tol cs ds s : (forall i, i <= S s -> nth_error cs i = nth_error ds i) -> stalls warm lag tol cs s -> stalls warm lag tol ds s.
Proof. intros H (Hw & t & x & y & Et & Ex & Ey & Hc). split; [exact Hw|]. exists t, x, y. split; [exact Et|]. rewrite <- !H by lia. auto. Qed.

Lemma looser_close a b x y : looser (Some a) (Some b) -> close a x y -> close b x y.
Proof. destruct a, b; cbn; intros H1 H2; try tauto. lra. Qed.
Lemma looser_stalls warm lag a b cs s : looser a b -> stalls warm lag a cs s -> stalls warm lag b cs s.
Proof.
  intros H (Hw & t & x & y & -> & Ex & Ey & Hc). split; [exact Hw|]. destruct b as [u|]; [|destruct t; cbn in H; tauto].
  exists u, x, y. split; [reflexivity|]. split; [exact Ex|]. split; [exact Ey|]. exact (looser_close t u x y H Hc).
Qed.
Lemma looser_refl kw : allowed kw "tol" tol_float -> looser (Some (the_tol kw)) (Some (the_tol kw)).
Proof.
  intros H. unfold the_tol. destruct (arg kw "tol") as [v|] eqn:E; [|cbn; lra]. destruct (H v E) as [->|(x & -> & _)]; cbn; [tauto|lra].
Qed.
Lemma looser_refl_opt kw : allowed kw "tol" (fun v => v = PyNone \/ tol_float v) -> looser (the_opt_tol kw) (the_opt_tol kw).
Proof.
  intros H. unfold the_opt_tol, the_tol. destruct (arg kw "tol") as [v|] eqn:E; [|cbn; lra]. destruct (H v E) as [->|[->|(x & -> & _)]]; cbn; [tauto|tauto|lra].
Qed.

Lemma restart_det {U} on warm lag tol cs ds (perturb : nat -> U -> U) k x y z : (forall i, i <= k -> nth_error cs i = nth_error ds i) ->
  restart on warm lag tol cs perturb k x y -> restart on warm lag tol ds perturb k x z -> y = z.
Proof.
  intros H. destruct k as [|j]; cbn [restart]; [congruence|]. intros [(A1 & A2 & ->)|(A1 & ->)] [(B1 & B2 & ->)|(B1 & ->)]; try reflexivity; exfalso.
  - apply B1. split; [exact A1|]. exact (stalls_ext warm lag tol cs ds j H A2).
  - apply A1. split; [exact B1|]. apply (stalls_ext warm lag tol ds cs j); [|exact B2]. intros i Hi. symmetry. apply H, Hi.
Qed.
Lemma restart_off {U} warm lag tol tol' cs ds (perturb perturb' : nat -> U -> U) k x y z :
  restart false warm lag tol cs perturb k x y -> restart false warm lag tol' ds perturb' k x z -> y = z.
Proof. destruct k as [|j]; cbn [restart]; [congruence|]. intros [(A1 & _)|(_ & ->)] [(B1 & _)|(_ & ->)]; try discriminate. reflexivity. Qed.

(** a run with fewer steps and a looser tolerance is not longer *)
Lemma stop_shorter warm lag tol tol' N N' cs cs' : agree cs cs' -> looser tol tol' -> N' <= N -> stop_rule warm lag tol N cs -> stop_rule warm lag tol' N' cs' -> List.length cs' <= List.length cs.
Proof.
  intros Ha Hl HN (n & Ln & Hn & _ & S2) (n' & Ln' & Hn' & S1' & _). destruct (Nat.lt_ge_cases n n') as [H|H]; [exfalso|lia].
  specialize (S2 ltac:(lia)). apply (S1' (n - 1)); [lia|]. apply (looser_stalls warm lag tol tol' cs' (n - 1) Hl).
  apply (stalls_ext warm lag tol cs cs'); [|exact S2]. intros i Hi. apply Ha; lia.
Qed.
(** with the same tolerance it ends where the steps end *)
Lemma stop_cut warm lag tol N N' cs cs' : agree cs cs' -> looser tol tol -> N' <= N -> stop_rule warm lag tol N cs -> stop_rule warm lag tol N' cs' ->
  List.length cs' = Nat.min (S N') (List.length cs).
Proof.
  intros Ha Hl HN R R'. pose proof (stop_shorter warm lag tol tol N N' cs cs' Ha Hl HN R R') as Hs. destruct R as (n & Ln & Hn & S1 & _), R' as (n' & Ln' & Hn' & _ & S2').
  destruct (Nat.eq_dec n' N') as [->|Hne]; [lia|]. destruct (Nat.eq_dec n' n) as [->|Hnn]; [lia|]. exfalso. apply (S1 (n' - 1)); [lia|].
  apply (stalls_ext warm lag tol cs' cs); [|apply S2'; lia]. intros i Hi. symmetry. apply Ha; lia.
Qed.
Lemma cut_firstn {A} (l m : list A) n : agree l m -> List.length m = Nat.min n (List.length l) -> m = firstn n l.
Proof.
  intros Ha Hl. rewrite (starts_firstn l m (agree_starts l m Ha ltac:(lia))), Hl. destruct (Nat.le_gt_cases n (List.length l)) as [H|H]; [rewrite Nat.min_l by exact H; reflexivity|].
  rewrite Nat.min_r by lia. rewrite firstn_all, firstn_all2 by lia. reflexivity.
Qed.

(** parameter_shift_optimizer *)
Section Shift.
Context {St P Om U Z : Type} (descend : R -> P -> res P) (cost : P -> res R) (state : P -> res St) (p0 : P).
Let run kw := parameter_shift_optimizer (St := St) (Om := Om) (U := U) (Z := Z) descend cost state RetPlain p0 kw.

Lemma ps_agree kw kw' r r' cs ss ps cs' ss' ps' : ps_accepts kw -> ps_accepts kw' -> run kw = Ok r -> run kw' = Ok r' -> ps_result kw r cs ss ps -> ps_result kw' r' cs' ss' ps' ->
  the_eta kw = the_eta kw' ->
  agree cs cs' /\ (both kw kw' "return_state" -> agree ss ss') /\ (both kw kw' "return_params" -> agree ps ps') /\
  (the_flag kw "return_state" = true -> List.length ss = List.length cs) /\ (the_flag kw "return_params" = true -> List.length ps = List.length cs) /\
  (the_flag kw' "return_state" = true -> List.length ss' = List.length cs') /\ (the_flag kw' "return_params" = true -> List.length ps' = List.length cs').
Proof.
  intros A A' E E' R R' He.
  destruct (C56_shift_histories _ _ _ _ _ _ _ _ _ kw r cs ss ps A E R) as (q & Q0 & Qc & _ & Qf & Qs & Qp).
  destruct (C56_shift_histories _ _ _ _ _ _ _ _ _ kw' r' cs' ss' ps' A' E' R') as (q' & Q0' & Qc' & _ & Qf' & Qs' & Qp').
  assert (G : agree q q' /\ agree cs cs').
  { apply (chains_agree (fun p c => cost p = Ok c) _ _ q q' cs cs' ltac:(congruence) Qf Qf' ltac:(congruence) Qc Qc'). intros k x y z _ _ _ H1 H2. rewrite He in H1. congruence. }
  pose proof (Forall2_length' _ _ _ Qf) as L1. pose proof (Forall2_length' _ _ _ Qf') as L2.
  split; [apply G|]. split; [intros (F & F'); apply (agree_values (fun p s => state p = Ok s) q q'); [congruence|apply G|exact (Qs F)|exact (Qs' F')]|].
  split; [intros (F & F'); rewrite (Qp F), (Qp' F'); apply G|].
  split; [intros F; pose proof (Forall2_length' _ _ _ (Qs F)); lia|]. split; [intros F; rewrite (Qp F); lia|].
  split; [intros F; pose proof (Forall2_length' _ _ _ (Qs' F)); lia|]. intros F; rewrite (Qp' F); lia.
Qed.
End Shift.

(** C109: fewer steps cut the histories *)
Theorem C109_shift : forall St P Om U Z descend cost state (p0 : P) kw kw' (r r' : retval (item St P Om U Z)) cs ss ps cs' ss' ps',
  ps_accepts kw -> ps_accepts kw' -> parameter_shift_optimizer descend cost state RetPlain p0 kw = Ok r -> parameter_shift_optimizer descend cost state RetPlain p0 kw' = Ok r' ->
  ps_result kw r cs ss ps -> ps_result kw' r' cs' ss' ps' -> the_eta kw = the_eta kw' -> the_tol kw = the_tol kw' -> the_steps kw' <= the_steps kw ->
  cs' = firstn (S (the_steps kw')) cs /\ (both kw kw' "return_state" -> ss' = firstn (S (the_steps kw')) ss) /\ (both kw kw' "return_params" -> ps' = firstn (S (the_steps kw')) ps).
Proof.
  intros St P Om U Z descend cost state p0 kw kw' r r' cs ss ps cs' ss' ps' A A' E E' R R' He Ht Hs.
  destruct (ps_agree descend cost state p0 kw kw' r r' cs ss ps cs' ss' ps' A A' E E' R R' He) as (G & G1 & G2 & L1 & L2 & L1' & L2').
  pose proof (C57_shift_stop _ _ _ _ _ _ _ _ _ _ r cs ss ps A E R) as T. pose proof (C57_shift_stop _ _ _ _ _ _ _ _ _ _ r' cs' ss' ps' A' E' R') as T'. rewrite <- Ht in T'.
  pose proof (stop_cut 2 1 _ _ _ cs cs' G (looser_refl kw (proj1 (proj2 (proj2 A)))) Hs T T') as L.
  split; [apply cut_firstn; assumption|]. split; intros F; (apply cut_firstn; [auto|]); destruct F as (F & F').
  - rewrite (L1 F), (L1' F'). exact L.
  - rewrite (L2 F), (L2' F'). exact L.
Qed.
Print Assumptions C109_shift.

(** C110: a looser tolerance cuts the histories *)
Theorem C110_shift : forall St P Om U Z descend cost state (p0 : P) kw kw' (r r' : retval (item St P Om U Z)) cs ss ps cs' ss' ps',
  ps_accepts kw -> ps_accepts kw' -> parameter_shift_optimizer descend cost state RetPlain p0 kw = Ok r -> parameter_shift_optimizer descend cost state RetPlain p0 kw' = Ok r' ->
  ps_result kw r cs ss ps -> ps_result kw' r' cs' ss' ps' -> the_eta kw = the_eta kw' -> looser (Some (the_tol kw)) (Some (the_tol kw')) -> the_steps kw' = the_steps kw ->
  starts_with cs cs' /\ (both kw kw' "return_state" -> starts_with ss ss') /\ (both kw kw' "return_params" -> starts_with ps ps').
Proof.
  intros St P Om U Z descend cost state p0 kw kw' r r' cs ss ps cs' ss' ps' A A' E E' R R' He Ht Hs.
  destruct (ps_agree descend cost state p0 kw kw' r r' cs ss ps cs' ss' ps' A A' E E' R R' He) as (G & G1 & G2 & L1 & L2 & L1' & L2').
  pose proof (C57_shift_stop _ _ _ _ _ _ _ _ _ _ r cs ss ps A E R) as T. pose proof (C57_shift_stop _ _ _ _ _ _ _ _ _ _ r' cs' ss' ps' A' E' R') as T'.
  pose proof (stop_shorter 2 1 _ _ _ _ cs cs' G Ht (Nat.eq_le_incl _ _ Hs) T T') as L.
  split; [apply agree_starts; assumption|]. split; intros F; (apply agree_starts; [auto|]); destruct F as (F & F').
  - rewrite (L1 F), (L1' F'). exact L.
  - rewrite (L2 F), (L2' F'). exact L.
Qed.
Print Assumptions C110_shift.

(** C111: the flags only observe *)
Theorem C111_shift : forall St P Om U Z descend cost state (p0 : P) kw kw' (r r' : retval (item St P Om U Z)) cs ss ps cs' ss' ps',
  ps_accepts kw -> ps_accepts kw' -> parameter_shift_optimizer descend cost state RetPlain p0 kw = Ok r -> parameter_shift_optimizer descend cost state RetPlain p0 kw' = Ok r' ->
  ps_result kw r cs ss ps -> ps_result kw' r' cs' ss' ps' -> the_eta kw = the_eta kw' -> the_tol kw = the_tol kw' -> the_steps kw = the_steps kw' ->
  cs = cs' /\ (both kw kw' "return_state" -> ss = ss') /\ (both kw kw' "return_params" -> ps = ps').
Proof.
  intros St P Om U Z descend cost state p0 kw kw' r r' cs ss ps cs' ss' ps' A A' E E' R R' He Ht Hs.
  destruct (ps_agree descend cost state p0 kw kw' r r' cs ss ps cs' ss' ps' A A' E E' R R' He) as (G & G1 & G2 & L1 & L2 & L1' & L2').
  pose proof (C57_shift_stop _ _ _ _ _ _ _ _ _ _ r cs ss ps A E R) as T. pose proof (C57_shift_stop _ _ _ _ _ _ _ _ _ _ r' cs' ss' ps' A' E' R') as T'. rewrite <- Ht in T'.
  pose proof (stop_cut 2 1 _ _ _ cs cs' G (looser_refl kw (proj1 (proj2 (proj2 A)))) (Nat.eq_le_incl _ _ (eq_sym Hs)) T T') as L.
  assert (LL : List.length cs' = List.length cs) by (destruct T as (n & Ln & Hn & _); lia).
  split; [apply agree_eq; assumption|]. split; intros F; (apply agree_eq; [auto|]); destruct F as (F & F').
  - rewrite (L1 F), (L1' F'). exact LL.
  - rewrite (L2 F), (L2' F'). exact LL.
Qed.
Print Assumptions C111_shift.

(** exact_lie_optimizer *)
Section Exact.
Context {St P Om U Z : Type} (flow : R -> U -> res U) (cost : U -> res R) (state : U -> res St) (perturb : R -> nat -> U -> U) (start : res U).
Let run kw := exact_lie_optimizer (St := St) (P := P) (Om := Om) (Z := Z) flow cost state perturb RetState start kw.

Lemma ex_agree kw kw' r r' cs ss ps u cs' ss' ps' u' : ex_accepts kw -> ex_accepts kw' -> run kw = Ok r -> run kw' = Ok r' -> ex_result kw r cs ss ps u -> ex_result kw' r' cs' ss' ps' u' ->
  the_eta kw = the_eta kw' -> the_flag kw "perturbation" = the_flag kw' "perturbation" -> (the_flag kw "perturbation" = true -> the_tol kw = the_tol kw') ->
  agree cs cs' /\ (both kw kw' "return_state" -> agree ss ss') /\
  (both kw kw' "return_unitary" -> the_tol kw = the_tol kw' -> List.length cs = List.length cs' -> u = u') /\
  (the_flag kw "return_state" = true -> List.length ss = List.length cs) /\ (the_flag kw' "return_state" = true -> List.length ss' = List.length cs').
Proof.
  intros A A' E E' R R' He Hp Ht.
  destruct (C56_exact_histories _ _ _ _ _ _ _ _ _ _ kw r cs ss ps u A E R) as (q & u0 & n & S0 & Q0 & Ln & _ & Qc & Qf & Qs & Qu).
  destruct (C56_exact_histories _ _ _ _ _ _ _ _ _ _ kw' r' cs' ss' ps' u' A' E' R') as (q' & u0' & n' & S0' & Q0' & Ln' & _ & Qc' & Qf' & Qs' & Qu').
  assert (G : agree q q' /\ agree cs cs').
  { apply (chains_agree (fun p c => cost p = Ok c) _ _ q q' cs cs' ltac:(congruence) Qf Qf' ltac:(congruence) Qc Qc'). intros k x y z H1 H2 Hi (x1 & B1 & D1) (x2 & B2 & D2).
    assert (x1 = x2). { rewrite <- Hp, <- He in B2. destruct (the_flag kw "perturbation"); [rewrite <- (Ht eq_refl) in B2; exact (restart_det _ _ _ _ _ _ _ _ _ _ _ Hi B1 B2)|exact (restart_off _ _ _ _ _ _ _ _ _ _ _ _ B1 B2)]. }
    subst x2. rewrite He in D1. congruence. }
  pose proof (Forall2_length' _ _ _ Qf) as L1. pose proof (Forall2_length' _ _ _ Qf') as L2.
  split; [apply G|]. split; [intros (F & F'); apply (agree_values (fun p s => state p = Ok s) q q'); [congruence|apply G|exact (Qs F)|exact (Qs' F')]|].
  split; [|split; [intros F; pose proof (Forall2_length' _ _ _ (Qs F)); lia|intros F; pose proof (Forall2_length' _ _ _ (Qs' F)); lia]].
  intros (F & F') Htt Hl. destruct (Qu F) as (x & Ex & B). destruct (Qu' F') as (x' & Ex' & B'). destruct G as (G1 & G2).
  assert (n = n') by lia. subst n'. assert (x = x') by (specialize (G1 n ltac:(lia) ltac:(lia)); congruence). subst x'. rewrite <- Hp, <- He, <- Htt in B'.
  refine (restart_det _ _ _ _ cs cs' _ n x u u' _ B B'). intros i Hi. apply G2; lia.
Qed.

Lemma ex_length kw r cs ss ps u : ex_accepts kw -> run kw = Ok r -> ex_result kw r cs ss ps u ->
  (the_flag kw "perturbation" = false -> stop_rule 3 1 (Some (the_tol kw)) (the_steps kw) cs) /\ (the_flag kw "perturbation" = true -> List.length cs = S (the_steps kw)).
Proof. intros A E R. split; intros F; [exact (C57_exact_stop _ _ _ _ _ _ _ _ _ _ kw r cs ss ps u A E R F)|exact (proj1 (C58_exact_perturbations _ _ _ _ _ _ _ _ _ _ kw r cs ss ps u A E R F))]. Qed.

Lemma ex_cut kw kw' r r' cs ss ps u cs' ss' ps' u' : ex_accepts kw -> ex_accepts kw' -> run kw = Ok r -> run kw' = Ok r' -> ex_result kw r cs ss ps u -> ex_result kw' r' cs' ss' ps' u' ->
  the_eta kw = the_eta kw' -> the_flag kw "perturbation" = the_flag kw' "perturbation" -> the_tol kw = the_tol kw' -> the_steps kw' <= the_steps kw ->
  List.length cs' = Nat.min (S (the_steps kw')) (List.length cs).
Proof.
  intros A A' E E' R R' He Hp Ht Hs. destruct (ex_agree kw kw' r r' cs ss ps u cs' ss' ps' u' A A' E E' R R' He Hp (fun _ => Ht)) as (G & _).
  destruct (ex_length kw r cs ss ps u A E R) as (T1 & T2). destruct (ex_length kw' r' cs' ss' ps' u' A' E' R') as (T1' & T2'). rewrite <- Hp in *.
  destruct (the_flag kw "perturbation"); [rewrite (T2 eq_refl), (T2' eq_refl); lia|]. rewrite <- Ht in T1'.
  exact (stop_cut 3 1 _ _ _ cs cs' G (looser_refl kw (proj1 (proj2 (proj2 A)))) Hs (T1 eq_refl) (T1' eq_refl)).
Qed.
End Exact.

(** the perturbations of the shorter run are those of its steps *)
Theorem C109_exact : forall St P Om U Z flow cost state perturb start kw kw' (r r' : retval (item St P Om U Z)) cs ss ps u cs' ss' ps' u',
  ex_accepts kw -> ex_accepts kw' -> exact_lie_optimizer flow cost state perturb RetState start kw = Ok r -> exact_lie_optimizer flow cost state perturb RetState start kw' = Ok r' ->
  ex_result kw r cs ss ps u -> ex_result kw' r' cs' ss' ps' u' ->
  the_eta kw = the_eta kw' -> the_tol kw = the_tol kw' -> the_flag kw "perturbation" = the_flag kw' "perturbation" -> the_steps kw' <= the_steps kw ->
  cs' = firstn (S (the_steps kw')) cs /\ (both kw kw' "return_state" -> ss' = firstn (S (the_steps kw')) ss) /\
  (both kw kw' "return_perturbations" -> forall s, In s ps' <-> In s ps /\ s < the_steps kw').
Proof.
  intros St P Om U Z flow cost state perturb start kw kw' r r' cs ss ps u cs' ss' ps' u' A A' E E' R R' He Ht Hp Hs.
  destruct (ex_agree flow cost state perturb start kw kw' r r' cs ss ps u cs' ss' ps' u' A A' E E' R R' He Hp (fun _ => Ht)) as (G & G1 & _ & L1 & L1').
  pose proof (ex_cut flow cost state perturb start kw kw' r r' cs ss ps u cs' ss' ps' u' A A' E E' R R' He Hp Ht Hs) as L.
  split; [apply cut_firstn; assumption|]. split; [intros F; apply cut_firstn; [auto|]; destruct F as (F & F'); rewrite (L1 F), (L1' F'); exact L|].
  intros (F & F') s. pose proof (proj2 (proj2 (proj2 (proj2 A))) F) as Fp. pose proof (proj2 (proj2 (proj2 (proj2 A'))) F') as Fp'.
  destruct (C58_exact_perturbations _ _ _ _ _ _ _ _ _ _ kw r cs ss ps u A E R Fp) as (Ln & X). destruct (C58_exact_perturbations _ _ _ _ _ _ _ _ _ _ kw' r' cs' ss' ps' u' A' E' R' Fp') as (Ln' & X').
  destruct (X F) as (_ & _ & Y). destruct (X' F') as (_ & _ & Y'). rewrite Y, Y', <- Ht. split.
  - intros (H1 & H2). split; [split; [lia|]|exact H1]. apply (stalls_ext _ _ _ cs' cs); [|exact H2]. intros i Hi. symmetry. apply G; lia.
  - intros ((H1 & H2) & H3). split; [exact H3|]. apply (stalls_ext _ _ _ cs cs'); [|exact H2]. intros i Hi. apply G; lia.
Qed.
Print Assumptions C109_exact.

Theorem C110_exact : forall St P Om U Z flow cost state perturb start kw kw' (r r' : retval (item St P Om U Z)) cs ss ps u cs' ss' ps' u',
  ex_accepts kw -> ex_accepts kw' -> exact_lie_optimizer flow cost state perturb RetState start kw = Ok r -> exact_lie_optimizer flow cost state perturb RetState start kw' = Ok r' ->
  ex_result kw r cs ss ps u -> ex_result kw' r' cs' ss' ps' u' ->
  the_eta kw = the_eta kw' -> looser (Some (the_tol kw)) (Some (the_tol kw')) -> the_flag kw "perturbation" = false -> the_flag kw' "perturbation" = false -> the_steps kw' = the_steps kw ->
  starts_with cs cs' /\ (both kw kw' "return_state" -> starts_with ss ss').
Proof.
  intros St P Om U Z flow cost state perturb start kw kw' r r' cs ss ps u cs' ss' ps' u' A A' E E' R R' He Ht Hp Hp' Hs.
  destruct (ex_agree flow cost state perturb start kw kw' r r' cs ss ps u cs' ss' ps' u' A A' E E' R R' He ltac:(congruence) ltac:(congruence)) as (G & G1 & _ & L1 & L1').
  pose proof (C57_exact_stop _ _ _ _ _ _ _ _ _ _ kw r cs ss ps u A E R Hp) as T. pose proof (C57_exact_stop _ _ _ _ _ _ _ _ _ _ kw' r' cs' ss' ps' u' A' E' R' Hp') as T'.
  pose proof (stop_shorter 3 1 _ _ _ _ cs cs' G Ht (Nat.eq_le_incl _ _ Hs) T T') as L.
  split; [apply agree_starts; assumption|]. intros F; apply agree_starts; [auto|]; destruct F as (F & F'); rewrite (L1 F), (L1' F'); exact L.
Qed.
Print Assumptions C110_exact.

Theorem C111_exact : forall St P Om U Z flow cost state perturb start kw kw' (r r' : retval (item St P Om U Z)) cs ss ps u cs' ss' ps' u',
  ex_accepts kw -> ex_accepts kw' -> exact_lie_optimizer flow cost state perturb RetState start kw = Ok r -> exact_lie_optimizer flow cost state perturb RetState start kw' = Ok r' ->
  ex_result kw r cs ss ps u -> ex_result kw' r' cs' ss' ps' u' ->
  the_eta kw = the_eta kw' -> the_tol kw = the_tol kw' -> the_flag kw "perturbation" = the_flag kw' "perturbation" -> the_steps kw = the_steps kw' ->
  cs = cs' /\ (both kw kw' "return_state" -> ss = ss') /\ (both kw kw' "return_unitary" -> u = u').
Proof.
  intros St P Om U Z flow cost state perturb start kw kw' r r' cs ss ps u cs' ss' ps' u' A A' E E' R R' He Ht Hp Hs.
  destruct (ex_agree flow cost state perturb start kw kw' r r' cs ss ps u cs' ss' ps' u' A A' E E' R R' He Hp (fun _ => Ht)) as (G & G1 & Gu & L1 & L1').
  pose proof (ex_cut flow cost state perturb start kw kw' r r' cs ss ps u cs' ss' ps' u' A A' E E' R R' He Hp Ht (Nat.eq_le_incl _ _ (eq_sym Hs))) as L.
  assert (LL : List.length cs' = List.length cs).
  { destruct (ex_length flow cost state perturb start kw r cs ss ps u A E R) as (T1 & T2). destruct (the_flag kw "perturbation"); [rewrite (T2 eq_refl) in *; lia|]. destruct (T1 eq_refl) as (n & Ln & Hn & _). lia. }
  split; [apply agree_eq; assumption|]. split; [intros F; apply agree_eq; [auto|]; destruct F as (F & F'); rewrite (L1 F), (L1' F'); exact LL|]. auto.
Qed.
Print Assumptions C111_exact.

(** approximate_lie_optimizer *)
Section Approximate.
Context {St P Om U Z W : Type} (call : nat -> W -> U -> P -> res (U * P * W)) (su_state : nat -> W -> res Z) (directions : nat -> W -> U -> res Om)
  (cost : U -> res R) (state : U -> res St) (perturb : R -> nat -> U -> U) (layers : layers_arg) (w0 : W) (start : res U) (p0 : P).
Let run kw := approximate_lie_optimizer call su_state directions cost state perturb RetState layers w0 start p0 kw.

Lemma map_some_inj (l m : list nat) : map Some l = map Some m -> l = m.
Proof. revert m. induction l as [|x l IH]; intros [|y m] H; cbn in H; try discriminate; [reflexivity|]. injection H as -> H. f_equal. auto. Qed.

Lemma ap_agree kw kw' r r' cs ss os us ps zs cs' ss' os' us' ps' zs' : ap_accepts layers kw -> ap_accepts layers kw' -> run kw = Ok r -> run kw' = Ok r' ->
  ap_result kw r cs ss os us ps zs -> ap_result kw' r' cs' ss' os' us' ps' zs' ->
  (the_flag kw "perturb" = true -> the_eta kw = the_eta kw' /\ the_opt_tol kw = the_opt_tol kw') -> the_flag kw "perturb" = the_flag kw' "perturb" ->
  agree cs cs' /\ (both kw kw' "return_state" -> agree ss ss') /\ (both kw kw' "return_unitary" -> agree us us') /\
  (both kw kw' "return_omegas" -> agree os os') /\ (both kw kw' "return_zassenhaus" -> agree zs zs').
Proof.
  intros A A' E E' R R' He Hp.
  destruct (C56_C59_approximate_histories _ _ _ _ _ _ _ _ _ _ _ _ _ _ _ _ kw r cs ss os us ps zs A E R) as (q & u0 & n & ls & Hls & S0 & Q0 & Ln & _ & Qc & Qf & Qs & Qu & Lo & Lz).
  destruct (C56_C59_approximate_histories _ _ _ _ _ _ _ _ _ _ _ _ _ _ _ _ kw' r' cs' ss' os' us' ps' zs' A' E' R') as (q' & u0' & n' & ls' & Hls' & S0' & Q0' & Ln' & _ & Qc' & Qf' & Qs' & Qu' & Lo' & Lz').
  assert (ls' = ls) as -> by (rewrite Hls in Hls'; injection Hls' as H; symmetry; apply map_some_inj; exact H).
  assert (G : agree q q' /\ agree cs cs').
  { apply (chains_agree (fun x c => cost (unitary_of x) = Ok c) _ _ q q' cs cs' ltac:(congruence) Qf Qf' ltac:(congruence) Qc Qc').
    intros k x y z H1 H2 Hi (x1 & l1 & B1 & N1 & D1 & _) (x2 & l2 & B2 & N2 & D2 & _).
    assert (x1 = x2).
    { rewrite <- Hp in B2. destruct (the_flag kw "perturb"); [|exact (restart_off _ _ _ _ _ _ _ _ _ _ _ _ B1 B2)].
      destruct (He eq_refl) as (He1 & Ht1). rewrite <- He1, <- Ht1 in B2. exact (restart_det _ _ _ _ _ _ _ _ _ _ _ Hi B1 B2). }
    assert (l1 = l2) by congruence. subst x2 l2. rewrite D1 in D2. injection D2 as D3 D4 D5. destruct y as ((y1 & y2) & y3), z as ((z1 & z2) & z3). cbn in *. congruence. }
  destruct G as (G & Gc). split; [exact Gc|]. split; [intros (F & F'); apply (agree_values (fun x s => state (unitary_of x) = Ok s) q q'); [congruence|exact G|exact (Qs F)|exact (Qs' F')]|].
  split; [intros (F & F'); rewrite (Qu F), (Qu' F'); intros k Hk Hk'; rewrite map_length in Hk, Hk'; rewrite !nth_error_map, (G k Hk Hk'); reflexivity|].
  split; intros (F & F') k Hk Hk'.
  - rewrite (Lo F) in Hk. rewrite (Lo' F') in Hk'.
    destruct (nth_error q k) as [x|] eqn:Ex; [|apply nth_error_None in Ex; lia]. destruct (nth_error q (S k)) as [y|] eqn:Ey; [|apply nth_error_None in Ey; lia].
    destruct (Qc k x y Ex Ey) as (_ & l1 & _ & N1 & _ & O1 & _). rewrite (G k) in Ex by lia. rewrite (G (S k)) in Ey by lia. destruct (Qc' k x y Ex Ey) as (_ & l2 & _ & N2 & _ & O2 & _).
    destruct (O1 F) as (o & -> & D). destruct (O2 F') as (o' & -> & D'). congruence.
  - rewrite (Lz F) in Hk. rewrite (Lz' F') in Hk'.
    destruct (nth_error q k) as [x|] eqn:Ex; [|apply nth_error_None in Ex; lia]. destruct (nth_error q (S k)) as [y|] eqn:Ey; [|apply nth_error_None in Ey; lia].
    destruct (Qc k x y Ex Ey) as (_ & l1 & _ & N1 & _ & _ & O1). rewrite (G k) in Ex by lia. rewrite (G (S k)) in Ey by lia. destruct (Qc' k x y Ex Ey) as (_ & l2 & _ & N2 & _ & _ & O2).
    destruct (O1 F) as (o & -> & D). destruct (O2 F') as (o' & -> & D'). congruence.
Qed.

(** lengths of the lists *)
Lemma ap_lengths kw r cs ss os us ps zs : ap_accepts layers kw -> run kw = Ok r -> ap_result kw r cs ss os us ps zs ->
  (the_flag kw "return_state" = true -> List.length ss = List.length cs) /\ (the_flag kw "return_unitary" = true -> List.length us = List.length cs) /\
  (the_flag kw "return_omegas" = true -> S (List.length os) = List.length cs) /\ (the_flag kw "return_zassenhaus" = true -> S (List.length zs) = List.length cs).
Proof.
  intros A E R.
  destruct (C56_C59_approximate_histories _ _ _ _ _ _ _ _ _ _ _ _ _ _ _ _ kw r cs ss os us ps zs A E R) as (q & u0 & n & ls & Hls & S0 & Q0 & Ln & _ & Qc & Qf & Qs & Qu & Lo & Lz).
  pose proof (Forall2_length' _ _ _ Qf) as L. split; [intros F; pose proof (Forall2_length' _ _ _ (Qs F)); lia|]. split; [intros F; rewrite (Qu F), map_length; lia|].
  split; intros F; [rewrite (Lo F); lia|rewrite (Lz F); lia].
Qed.

Lemma ap_length kw r cs ss os us ps zs : ap_accepts layers kw -> run kw = Ok r -> ap_result kw r cs ss os us ps zs ->
  (the_flag kw "perturb" = false -> stop_rule 8 5 (the_opt_tol kw) (the_steps kw) cs) /\ (the_flag kw "perturb" = true -> List.length cs = S (the_steps kw)).
Proof.
  intros A E R. split; intros F; [exact (proj1 (C57_approximate_stop _ _ _ _ _ _ _ _ _ _ _ _ _ _ _ _ kw r cs ss os us ps zs A E R F))|
    exact (proj1 (C58_approximate_perturbations _ _ _ _ _ _ _ _ _ _ _ _ _ _ _ _ kw r cs ss os us ps zs A E R F))].
Qed.

Lemma ap_cut kw kw' r r' cs ss os us ps zs cs' ss' os' us' ps' zs' : ap_accepts layers kw -> ap_accepts layers kw' -> run kw = Ok r -> run kw' = Ok r' ->
  ap_result kw r cs ss os us ps zs -> ap_result kw' r' cs' ss' os' us' ps' zs' ->
  (the_flag kw "perturb" = true -> the_eta kw = the_eta kw') -> the_opt_tol kw = the_opt_tol kw' -> the_flag kw "perturb" = the_flag kw' "perturb" -> the_steps kw' <= the_steps kw ->
  List.length cs' = Nat.min (S (the_steps kw')) (List.length cs).
Proof.
  intros A A' E E' R R' He Ht Hp Hs. destruct (ap_agree kw kw' r r' cs ss os us ps zs cs' ss' os' us' ps' zs' A A' E E' R R' (fun F => conj (He F) Ht) Hp) as (G & _).
  destruct (ap_length kw r cs ss os us ps zs A E R) as (T1 & T2). destruct (ap_length kw' r' cs' ss' os' us' ps' zs' A' E' R') as (T1' & T2'). rewrite <- Hp in *.
  destruct (the_flag kw "perturb"); [rewrite (T2 eq_refl), (T2' eq_refl); lia|]. rewrite <- Ht in T1'.
  exact (stop_cut 8 5 _ _ _ cs cs' G (looser_refl_opt kw (proj1 (proj2 (proj2 (proj2 A))))) Hs (T1 eq_refl) (T1' eq_refl)).
Qed.
End Approximate.

(** the learning rate of approximate_lie_optimizer matters only for perturbations
    (the layers have their own) *)
Theorem C109_approximate : forall St P Om U Z W call su_state directions cost state perturb layers (w0 : W) start p0 kw kw' (r r' : retval (item St P Om U Z)) cs ss os us ps zs cs' ss' os' us' ps' zs',
  ap_accepts layers kw -> ap_accepts layers kw' ->
  approximate_lie_optimizer call su_state directions cost state perturb RetState layers w0 start p0 kw = Ok r ->
  approximate_lie_optimizer call su_state directions cost state perturb RetState layers w0 start p0 kw' = Ok r' ->
  ap_result kw r cs ss os us ps zs -> ap_result kw' r' cs' ss' os' us' ps' zs' ->
  (the_flag kw "perturb" = true -> the_eta kw = the_eta kw') -> the_opt_tol kw = the_opt_tol kw' -> the_flag kw "perturb" = the_flag kw' "perturb" -> the_steps kw' <= the_steps kw ->
  cs' = firstn (S (the_steps kw')) cs /\ (both kw kw' "return_state" -> ss' = firstn (S (the_steps kw')) ss) /\ (both kw kw' "return_unitary" -> us' = firstn (S (the_steps kw')) us) /\
  (both kw kw' "return_omegas" -> os' = firstn (the_steps kw') os) /\ (both kw kw' "return_zassenhaus" -> zs' = firstn (the_steps kw') zs) /\
  (both kw kw' "return_perturbations" -> forall s, In s ps' <-> In s ps /\ s < the_steps kw').
Proof.
  intros St P Om U Z W call su_state directions cost state perturb layers w0 start p0 kw kw' r r' cs ss os us ps zs cs' ss' os' us' ps' zs' A A' E E' R R' He Ht Hp Hs.
  destruct (ap_agree call su_state directions cost state perturb layers w0 start p0 kw kw' r r' cs ss os us ps zs cs' ss' os' us' ps' zs' A A' E E' R R' (fun F => conj (He F) Ht) Hp) as (G & G1 & G2 & G3 & G4).
  pose proof (ap_cut call su_state directions cost state perturb layers w0 start p0 kw kw' r r' cs ss os us ps zs cs' ss' os' us' ps' zs' A A' E E' R R' He Ht Hp Hs) as L.
  destruct (ap_lengths call su_state directions cost state perturb layers w0 start p0 kw r cs ss os us ps zs A E R) as (L1 & L2 & L3 & L4).
  destruct (ap_lengths call su_state directions cost state perturb layers w0 start p0 kw' r' cs' ss' os' us' ps' zs' A' E' R') as (L1' & L2' & L3' & L4').
  split; [apply cut_firstn; assumption|].
  split; [intros F; apply cut_firstn; [auto|]; destruct F as (F & F'); rewrite (L1 F), (L1' F'); exact L|].
  split; [intros F; apply cut_firstn; [auto|]; destruct F as (F & F'); rewrite (L2 F), (L2' F'); exact L|].
  split; [intros F; apply cut_firstn; [auto|]; destruct F as (F & F'); specialize (L3 F); specialize (L3' F'); lia|].
  split; [intros F; apply cut_firstn; [auto|]; destruct F as (F & F'); specialize (L4 F); specialize (L4' F'); lia|].
  intros (F & F') s. destruct (the_flag kw "perturb") eqn:Fp.
  - symmetry in Hp. destruct (C58_approximate_perturbations _ _ _ _ _ _ _ _ _ _ _ _ _ _ _ _ kw r cs ss os us ps zs A E R Fp) as (Ln & X).
    destruct (C58_approximate_perturbations _ _ _ _ _ _ _ _ _ _ _ _ _ _ _ _ kw' r' cs' ss' os' us' ps' zs' A' E' R' Hp) as (Ln' & X').
    destruct (X F) as (_ & _ & Y). destruct (X' F') as (_ & _ & Y'). rewrite Y, Y', <- Ht. split.
    + intros (H1 & H2). split; [split; [lia|]|exact H1]. apply (stalls_ext _ _ _ cs' cs); [|exact H2]. intros i Hi. symmetry. apply G; lia.
    + intros ((H1 & H2) & H3). split; [exact H3|]. apply (stalls_ext _ _ _ cs cs'); [|exact H2]. intros i Hi. apply G; lia.
  - symmetry in Hp. rewrite (proj2 (proj2 (C57_approximate_stop _ _ _ _ _ _ _ _ _ _ _ _ _ _ _ _ kw r cs ss os us ps zs A E R Fp)) F).
    rewrite (proj2 (proj2 (C57_approximate_stop _ _ _ _ _ _ _ _ _ _ _ _ _ _ _ _ kw' r' cs' ss' os' us' ps' zs' A' E' R' Hp)) F'). simpl. tauto.
Qed.
Print Assumptions C109_approximate.

Theorem C110_approximate : forall St P Om U Z W call su_state directions cost state perturb layers (w0 : W) start p0 kw kw' (r r' : retval (item St P Om U Z)) cs ss os us ps zs cs' ss' os' us' ps' zs',
  ap_accepts layers kw -> ap_accepts layers kw' ->
  approximate_lie_optimizer call su_state directions cost state perturb RetState layers w0 start p0 kw = Ok r ->
  approximate_lie_optimizer call su_state directions cost state perturb RetState layers w0 start p0 kw' = Ok r' ->
  ap_result kw r cs ss os us ps zs -> ap_result kw' r' cs' ss' os' us' ps' zs' ->
  looser (the_opt_tol kw) (the_opt_tol kw') -> the_flag kw "perturb" = false -> the_flag kw' "perturb" = false -> the_steps kw' = the_steps kw ->
  starts_with cs cs' /\ (both kw kw' "return_state" -> starts_with ss ss') /\ (both kw kw' "return_unitary" -> starts_with us us') /\
  (both kw kw' "return_omegas" -> starts_with os os') /\ (both kw kw' "return_zassenhaus" -> starts_with zs zs').
Proof.
  intros St P Om U Z W call su_state directions cost state perturb layers w0 start p0 kw kw' r r' cs ss os us ps zs cs' ss' os' us' ps' zs' A A' E E' R R' Ht Hp Hp' Hs.
  destruct (ap_agree call su_state directions cost state perturb layers w0 start p0 kw kw' r r' cs ss os us ps zs cs' ss' os' us' ps' zs' A A' E E' R R' ltac:(congruence) ltac:(congruence)) as (G & G1 & G2 & G3 & G4).
  pose proof (proj1 (C57_approximate_stop _ _ _ _ _ _ _ _ _ _ _ _ _ _ _ _ kw r cs ss os us ps zs A E R Hp)) as T.
  pose proof (proj1 (C57_approximate_stop _ _ _ _ _ _ _ _ _ _ _ _ _ _ _ _ kw' r' cs' ss' os' us' ps' zs' A' E' R' Hp')) as T'.
  pose proof (stop_shorter 8 5 _ _ _ _ cs cs' G Ht (Nat.eq_le_incl _ _ Hs) T T') as L.
  destruct (ap_lengths call su_state directions cost state perturb layers w0 start p0 kw r cs ss os us ps zs A E R) as (L1 & L2 & L3 & L4).
  destruct (ap_lengths call su_state directions cost state perturb layers w0 start p0 kw' r' cs' ss' os' us' ps' zs' A' E' R') as (L1' & L2' & L3' & L4').
  split; [apply agree_starts; assumption|].
  split; [intros F; apply agree_starts; [auto|]; destruct F as (F & F'); rewrite (L1 F), (L1' F'); exact L|].
  split; [intros F; apply agree_starts; [auto|]; destruct F as (F & F'); rewrite (L2 F), (L2' F'); exact L|].
  split; [intros F; apply agree_starts; [auto|]; destruct F as (F & F'); specialize (L3 F); specialize (L3' F'); lia|].
  intros F; apply agree_starts; [auto|]; destruct F as (F & F'); specialize (L4 F); specialize (L4' F'); lia.
Qed.
Print Assumptions C110_approximate.

Theorem C111_approximate : forall St P Om U Z W call su_state directions cost state perturb layers (w0 : W) start p0 kw kw' (r r' : retval (item St P Om U Z)) cs ss os us ps zs cs' ss' os' us' ps' zs',
  ap_accepts layers kw -> ap_accepts layers kw' ->
  approximate_lie_optimizer call su_state directions cost state perturb RetState layers w0 start p0 kw = Ok r ->
  approximate_lie_optimizer call su_state directions cost state perturb RetState layers w0 start p0 kw' = Ok r' ->
  ap_result kw r cs ss os us ps zs -> ap_result kw' r' cs' ss' os' us' ps' zs' ->
  (the_flag kw "perturb" = true -> the_eta kw = the_eta kw') -> the_opt_tol kw = the_opt_tol kw' -> the_flag kw "perturb" = the_flag kw' "perturb" -> the_steps kw = the_steps kw' ->
  cs = cs' /\ (both kw kw' "return_state" -> ss = ss') /\ (both kw kw' "return_unitary" -> us = us') /\
  (both kw kw' "return_omegas" -> os = os') /\ (both kw kw' "return_zassenhaus" -> zs = zs').
Proof.
  intros St P Om U Z W call su_state directions cost state perturb layers w0 start p0 kw kw' r r' cs ss os us ps zs cs' ss' os' us' ps' zs' A A' E E' R R' He Ht Hp Hs.
  destruct (ap_agree call su_state directions cost state perturb layers w0 start p0 kw kw' r r' cs ss os us ps zs cs' ss' os' us' ps' zs' A A' E E' R R' (fun F => conj (He F) Ht) Hp) as (G & G1 & G2 & G3 & G4).
  pose proof (ap_cut call su_state directions cost state perturb layers w0 start p0 kw kw' r r' cs ss os us ps zs cs' ss' os' us' ps' zs' A A' E E' R R' He Ht Hp (Nat.eq_le_incl _ _ (eq_sym Hs))) as L.
  assert (LL : List.length cs' = List.length cs).
  { destruct (ap_length call su_state directions cost state perturb layers w0 start p0 kw r cs ss os us ps zs A E R) as (T1 & T2). destruct (the_flag kw "perturb"); [rewrite (T2 eq_refl) in *; lia|].
    destruct (T1 eq_refl) as (n & Ln & Hn & _). lia. }
  destruct (ap_lengths call su_state directions cost state perturb layers w0 start p0 kw r cs ss os us ps zs A E R) as (L1 & L2 & L3 & L4).
  destruct (ap_lengths call su_state directions cost state perturb layers w0 start p0 kw' r' cs' ss' os' us' ps' zs' A' E' R') as (L1' & L2' & L3' & L4').
  split; [apply agree_eq; assumption|].
  split; [intros F; apply agree_eq; [auto|]; destruct F as (F & F'); rewrite (L1 F), (L1' F'); exact LL|].
  split; [intros F; apply agree_eq; [auto|]; destruct F as (F & F'); rewrite (L2 F), (L2' F'); exact LL|].
  split; [intros F; apply agree_eq; [auto|]; destruct F as (F & F'); specialize (L3 F); specialize (L3' F'); lia|].
  intros F; apply agree_eq; [auto|]; destruct F as (F & F'); specialize (L4 F); specialize (L4' F'); lia.
Qed.
Print Assumptions C111_approximate.

(** C112: a run resumed from what it returned *)

(** the entries of the first run, then those of the second without its first, which
    is the last of the first run *)
Definition joined {A} (l m : list A) : list A := l ++ tl m.
(** entries at the same place are the same *)
Definition same_entries {A} (l m : list A) : Prop := forall k x y, nth_error l k = Some x -> nth_error m k = Some y -> x = y.
(** all steps were made *)
Definition complete (kw : kwargs) (cs : list R) : Prop := List.length cs = S (the_steps kw).

Lemma agree_same {A} (l m : list A) : agree l m -> same_entries l m.
Proof.
  intros H k x y Ex Ey. assert (k < List.length l) by (apply nth_error_Some; congruence). assert (k < List.length m) by (apply nth_error_Some; congruence).
  specialize (H k ltac:(assumption) ltac:(assumption)). congruence.
Qed.

Lemma joined_length {A} (l m : list A) : List.length (joined l m) = List.length l + (List.length m - 1).
Proof. unfold joined. rewrite app_length. destruct m; cbn; lia. Qed.

Lemma joined_nth {A} (l m : list A) n k : List.length l = S n -> nth_error l n = nth_error m 0 -> nth_error (joined l m) (n + k) = nth_error m k.
Proof.
  intros Hl H0. unfold joined. destruct k as [|k].
  - rewrite Nat.add_0_r, nth_error_app1 by lia. exact H0.
  - rewrite nth_error_app2 by lia. replace (n + S k - List.length l) with k by lia. destruct m as [|x m]; [|reflexivity]. cbn. destruct k; reflexivity.
Qed.

Lemma joined_chain {A} (step step2 : nat -> A -> A -> Prop) (l m : list A) n : List.length l = S n -> nth_error l n = nth_error m 0 ->
  (forall k x y, step2 k x y -> step (n + k) x y) -> chain step l -> chain step2 m -> chain step (joined l m).
Proof.
  intros Hl H0 Hs C1 C2 k x y Ex Ey. destruct (Nat.lt_ge_cases k n) as [Hk|Hk].
  - unfold joined in Ex, Ey. rewrite nth_error_app1 in Ex, Ey by lia. exact (C1 k x y Ex Ey).
  - replace k with (n + (k - n)) in Ex by lia. replace (S k) with (n + S (k - n)) in Ey by lia. rewrite (joined_nth l m n _ Hl H0) in Ex. rewrite (joined_nth l m n _ Hl H0) in Ey.
    specialize (Hs (k - n) x y (C2 _ x y Ex Ey)). replace (n + (k - n)) with k in Hs by lia. exact Hs.
Qed.

Lemma joined_Forall2 {A B} (f : A -> B -> Prop) l m cs ds : Forall2 f l cs -> Forall2 f m ds -> Forall2 f (joined l m) (joined cs ds).
Proof. intros H1 H2. apply Forall2_app; [exact H1|]. destruct H2; [constructor|assumption]. Qed.

Theorem C112_shift : forall St P Om U Z descend cost state (p0 p1 : P) kw kw2 kw3 (r r2 r3 : retval (item St P Om U Z)) cs ss ps cs2 ss2 ps2 cs3 ss3 ps3,
  ps_accepts kw -> ps_accepts kw2 -> ps_accepts kw3 -> the_eta kw = the_eta kw2 -> the_eta kw = the_eta kw3 ->
  parameter_shift_optimizer descend cost state RetPlain p0 kw = Ok r -> ps_result kw r cs ss ps -> the_flag kw "return_params" = true -> nth_error ps (List.length ps - 1) = Some p1 ->
  parameter_shift_optimizer descend cost state RetPlain p1 kw2 = Ok r2 -> ps_result kw2 r2 cs2 ss2 ps2 ->
  parameter_shift_optimizer descend cost state RetPlain p0 kw3 = Ok r3 -> ps_result kw3 r3 cs3 ss3 ps3 ->
  same_entries cs3 (joined cs cs2) /\
  (complete kw cs -> complete kw2 cs2 -> complete kw3 cs3 -> the_steps kw3 = the_steps kw + the_steps kw2 -> cs3 = joined cs cs2).
Proof.
  intros St P Om U Z descend cost state p0 p1 kw kw2 kw3 r r2 r3 cs ss ps cs2 ss2 ps2 cs3 ss3 ps3 A A2 A3 He2 He3 E R Fp Hp E2 R2 E3 R3.
  destruct (C56_shift_histories _ _ _ _ _ _ _ _ _ kw r cs ss ps A E R) as (q & Q0 & Qc & Ql & Qf & _ & Qp). specialize (Qp Fp). subst q.
  destruct (C56_shift_histories _ _ _ _ _ _ _ _ _ kw2 r2 cs2 ss2 ps2 A2 E2 R2) as (q2 & Q02 & Qc2 & _ & Qf2 & _).
  destruct (C56_shift_histories _ _ _ _ _ _ _ _ _ kw3 r3 cs3 ss3 ps3 A3 E3 R3) as (q3 & Q03 & Qc3 & _ & Qf3 & _).
  assert (G : agree q3 (joined ps q2) /\ agree cs3 (joined cs cs2)).
  { apply (chains_agree (fun p c => cost p = Ok c) _ _ q3 (joined ps q2) cs3 (joined cs cs2) ltac:(congruence) Qf3 (joined_Forall2 _ _ _ _ _ Qf Qf2)
      ltac:(unfold joined; rewrite nth_error_app1 by lia; congruence) Qc3 (joined_chain _ _ ps q2 (List.length ps - 1) ltac:(lia) ltac:(congruence) (fun _ _ _ H => H) Qc ltac:(rewrite He2; exact Qc2))).
    cbn beta. intros k x y z _ _ _ H1 H2. rewrite <- He3 in H1. congruence. }
  split; [apply agree_same, G|]. intros K1 K2 K3 Hs. apply agree_eq; [apply G|]. rewrite joined_length. unfold complete in *. lia.
Qed.
Print Assumptions C112_shift.

Theorem C112_exact : forall St P Om U Z flow cost state perturb start kw kw2 kw3 (r r2 r3 : retval (item St P Om U Z)) cs ss ps u cs2 ss2 ps2 u2 cs3 ss3 ps3 u3,
  ex_accepts kw -> ex_accepts kw2 -> ex_accepts kw3 -> the_eta kw = the_eta kw2 -> the_eta kw = the_eta kw3 ->
  the_flag kw "perturbation" = false -> the_flag kw2 "perturbation" = false -> the_flag kw3 "perturbation" = false ->
  exact_lie_optimizer flow cost state perturb RetState start kw = Ok r -> ex_result kw r cs ss ps u -> the_flag kw "return_unitary" = true ->
  exact_lie_optimizer flow cost state perturb RetState (Ok u) kw2 = Ok r2 -> ex_result kw2 r2 cs2 ss2 ps2 u2 ->
  exact_lie_optimizer flow cost state perturb RetState start kw3 = Ok r3 -> ex_result kw3 r3 cs3 ss3 ps3 u3 ->
  same_entries cs3 (joined cs cs2) /\
  (complete kw cs -> complete kw2 cs2 -> complete kw3 cs3 -> the_steps kw3 = the_steps kw + the_steps kw2 ->
   cs3 = joined cs cs2 /\ (both kw2 kw3 "return_unitary" -> u3 = u2)).
Proof.
  intros St P Om U Z flow cost state perturb start kw kw2 kw3 r r2 r3 cs ss ps u cs2 ss2 ps2 u2 cs3 ss3 ps3 u3 A A2 A3 He2 He3 F F2 F3 E R Fu E2 R2 E3 R3.
  destruct (C56_exact_histories _ _ _ _ _ _ _ _ _ _ kw r cs ss ps u A E R) as (q & a & n & S0 & Q0 & Ln & _ & Qc & Qf & _ & Qu).
  destruct (C56_exact_histories _ _ _ _ _ _ _ _ _ _ kw2 r2 cs2 ss2 ps2 u2 A2 E2 R2) as (q2 & a2 & n2 & S02 & Q02 & Ln2 & _ & Qc2 & Qf2 & _ & Qu2).
  destruct (C56_exact_histories _ _ _ _ _ _ _ _ _ _ kw3 r3 cs3 ss3 ps3 u3 A3 E3 R3) as (q3 & a3 & n3 & S03 & Q03 & Ln3 & _ & Qc3 & Qf3 & _ & Qu3).
  rewrite F in Qc, Qu. rewrite F2 in Qc2, Qu2. rewrite F3 in Qc3, Qu3. injection S02 as <-.
  assert (O : forall tol cs (f : nat -> U -> U) k x y, restart false 3 1 tol cs f k x y -> y = x).
  { intros tol ds f k x y H. exact (restart_off 3 1 tol tol ds ds f f k x y x H ltac:(destruct k; [reflexivity|right; split; [intros [? _]; discriminate|reflexivity]])). }
  assert (Hu : nth_error q n = Some u). { destruct (Qu Fu) as (x & Ex & B). apply O in B. congruence. }
  set (step := fun (_ : nat) x y => flow (the_eta kw) x = Ok y).
  assert (C : chain step q). { intros k x y Ex Ey. destruct (Qc k x y Ex Ey) as (x' & B & D). apply O in B. subst x'. exact D. }
  assert (C2 : chain step q2). { intros k x y Ex Ey. destruct (Qc2 k x y Ex Ey) as (x' & B & D). apply O in B. subst x'. unfold step. rewrite He2. exact D. }
  assert (C3 : chain step q3). { intros k x y Ex Ey. destruct (Qc3 k x y Ex Ey) as (x' & B & D). apply O in B. subst x'. unfold step. rewrite He3. exact D. }
  assert (G : agree q3 (joined q q2) /\ agree cs3 (joined cs cs2)).
  { apply (chains_agree (fun p c => cost p = Ok c) step step q3 (joined q q2) cs3 (joined cs cs2) ltac:(congruence) Qf3 (joined_Forall2 _ _ _ _ _ Qf Qf2)
      ltac:(unfold joined; rewrite nth_error_app1 by lia; congruence) C3 (joined_chain step step q q2 n Ln ltac:(congruence) (fun _ _ _ H => H) C C2)).
    unfold step. intros k x y z _ _ _ H1 H2. congruence. }
  split; [apply agree_same, G|]. intros K1 K2 K3 Hs.
  assert (HL : List.length (joined cs cs2) = List.length cs3) by (rewrite joined_length; unfold complete in *; lia).
  split; [apply agree_eq; [apply G|exact HL]|]. intros (B2 & B3).
  destruct (Qu2 B2) as (x2 & X2 & Y2). destruct (Qu3 B3) as (x3 & X3 & Y3). apply O in Y2. apply O in Y3. subst x2 x3.
  pose proof (Forall2_length' _ _ _ Qf). pose proof (Forall2_length' _ _ _ Qf2). pose proof (Forall2_length' _ _ _ Qf3). unfold complete in *.
  assert (E' : nth_error q3 n3 = nth_error (joined q q2) n3) by (apply G; [lia|rewrite joined_length; lia]).
  replace n3 with (n + n2) in E' at 2 by lia. rewrite (joined_nth q q2 n n2 Ln ltac:(congruence)) in E'. congruence.
Qed.
Print Assumptions C112_exact.

(** the layers start from the first one again, and keep what they store between
    calls; a run can be resumed after whole cycles of layers whose calls depend on
    the circuit only *)
Theorem C112_approximate : forall St P Om U Z W call su_state directions cost state perturb layers ls (w0 w1 : W) start (p0 p1 : P) kw kw2 kw3 (r r2 r3 : retval (item St P Om U Z))
    cs ss os us ps zs u cs2 ss2 os2 us2 ps2 zs2 cs3 ss3 os3 us3 ps3 zs3,
  (forall l w w' u p p' u1 u2 q q' v v', call l w u p = Ok (u1, q, v) -> call l w' u p' = Ok (u2, q', v') -> u1 = u2) ->
  ap_accepts layers kw -> ap_accepts layers kw2 -> ap_accepts layers kw3 -> layers = AList (map Some ls) ->
  the_flag kw "perturb" = false -> the_flag kw2 "perturb" = false -> the_flag kw3 "perturb" = false ->
  approximate_lie_optimizer call su_state directions cost state perturb RetState layers w0 start p0 kw = Ok r -> ap_result kw r cs ss os us ps zs ->
  the_flag kw "return_unitary" = true -> nth_error us (List.length us - 1) = Some u -> (List.length cs - 1) mod List.length ls = 0 ->
  approximate_lie_optimizer call su_state directions cost state perturb RetState layers w1 (Ok u) p1 kw2 = Ok r2 -> ap_result kw2 r2 cs2 ss2 os2 us2 ps2 zs2 ->
  approximate_lie_optimizer call su_state directions cost state perturb RetState layers w0 start p0 kw3 = Ok r3 -> ap_result kw3 r3 cs3 ss3 os3 us3 ps3 zs3 ->
  same_entries cs3 (joined cs cs2) /\
  (complete kw cs -> complete kw2 cs2 -> complete kw3 cs3 -> the_steps kw3 = the_steps kw + the_steps kw2 -> cs3 = joined cs cs2).
Proof.
  intros St P Om U Z W call su_state directions cost state perturb layers ls w0 w1 start p0 p1 kw kw2 kw3 r r2 r3 cs ss os us ps zs u cs2 ss2 os2 us2 ps2 zs2 cs3 ss3 os3 us3 ps3 zs3
    Hcall A A2 A3 HL F F2 F3 E R Fu Hu Hm E2 R2 E3 R3.
  destruct (C56_C59_approximate_histories _ _ _ _ _ _ _ _ _ _ _ _ _ _ _ _ kw r cs ss os us ps zs A E R) as (q & a & n & l1 & Hl1 & S0 & Q0 & Ln & _ & Qc & Qf & _ & Qu & _).
  destruct (C56_C59_approximate_histories _ _ _ _ _ _ _ _ _ _ _ _ _ _ _ _ kw2 r2 cs2 ss2 os2 us2 ps2 zs2 A2 E2 R2) as (q2 & a2 & n2 & l2 & Hl2 & S02 & Q02 & Ln2 & _ & Qc2 & Qf2 & _).
  destruct (C56_C59_approximate_histories _ _ _ _ _ _ _ _ _ _ _ _ _ _ _ _ kw3 r3 cs3 ss3 os3 us3 ps3 zs3 A3 E3 R3) as (q3 & a3 & n3 & l3 & Hl3 & S03 & Q03 & Ln3 & _ & Qc3 & Qf3 & _).
  assert (I : forall l, layers = AList (map Some l) -> ls = l) by (intros l Hl; rewrite HL in Hl; injection Hl as Hl; apply map_some_inj; exact Hl). apply I in Hl1. apply I in Hl2. apply I in Hl3. subst l1 l2 l3. injection S02 as S02. subst a2.
  rewrite F in Qc. rewrite F2 in Qc2. rewrite F3 in Qc3.
  assert (O : forall tol cs (f : nat -> U -> U) k x y, restart false 8 5 tol cs f k x y -> y = x).
  { intros tol ds f k x y H. exact (restart_off 8 5 tol tol ds ds f f k x y x H ltac:(destruct k; [reflexivity|right; split; [intros [? _]; discriminate|reflexivity]])). }
  set (step := fun (k : nat) x y => exists l w p p' w', nth_error ls (k mod List.length ls) = Some l /\ call l w x p = Ok (y, p', w')).
  assert (C : forall tol eta ds os' zs' b b' (q : list (W * U * P)), chain (fun k x y => exists u' layer, restart false 8 5 tol ds (perturb eta) k (unitary_of x) u' /\
             nth_error ls (k mod List.length ls) = Some layer /\ call layer (objects x) u' (params_of x) = Ok (unitary_of y, params_of y, objects y) /\
             (b = true -> exists o, nth_error os' k = Some o /\ directions layer (objects y) (unitary_of y) = Ok o) /\
             (b' = true -> exists z, nth_error zs' k = Some z /\ su_state layer (objects x) = Ok z)) q -> chain step (map unitary_of q)).
  { intros tol eta ds os' zs' b b' xs Hc k x y Ex Ey. rewrite nth_error_map in Ex, Ey. destruct (nth_error xs k) as [x0|] eqn:Ex0; [|discriminate]. destruct (nth_error xs (S k)) as [y0|] eqn:Ey0; [|discriminate].
    injection Ex as <-. injection Ey as <-. destruct (Hc k x0 y0 Ex0 Ey0) as (x' & l & B & N & D & _). apply O in B. subst x'. unfold step. exists l. eauto 8. }
  apply C in Qc. apply C in Qc2. apply C in Qc3.
  assert (M : forall (xs : list (W * U * P)) ds, Forall2 (fun x c => cost (unitary_of x) = Ok c) xs ds -> Forall2 (fun x c => cost x = Ok c) (map unitary_of xs) ds).
  { intros xs ds H. induction H; cbn; constructor; assumption. }
  apply M in Qf. apply M in Qf2. apply M in Qf3. rewrite (Qu Fu), map_length in Hu. replace (List.length q - 1) with n in Hu by lia.
  assert (Hq : nth_error (map unitary_of q) n = nth_error (map unitary_of q2) 0) by (rewrite Hu, nth_error_map, Q02; reflexivity).
  assert (Hn : n mod List.length ls = 0). { pose proof (Forall2_length' _ _ _ Qf) as Lq. rewrite map_length in Lq. replace (List.length cs - 1) with n in Hm by lia. exact Hm. }
  assert (Hshift : forall k x y, step k x y -> step (n + k) x y).
  { intros k x y (l & w & p & p' & w' & N & D). exists l, w, p, p', w'. split; [|exact D]. rewrite <- N. f_equal. destruct ls as [|l0 ls']; [exfalso; cbn [List.length] in N; revert N; generalize (k mod 0); intros []; discriminate|].
    set (m := List.length (l0 :: ls')) in *. assert (m <> 0) by (unfold m; cbn; lia). rewrite Nat.add_mod, Hn by assumption. change (0 + k mod m) with (k mod m). apply Nat.mod_mod. assumption. }
  assert (G : agree (map unitary_of q3) (joined (map unitary_of q) (map unitary_of q2)) /\ agree cs3 (joined cs cs2)).
  { apply (chains_agree (fun p c => cost p = Ok c) step step _ _ cs3 (joined cs cs2) ltac:(congruence) Qf3 (joined_Forall2 _ _ _ _ _ Qf Qf2)).
    - unfold joined. rewrite nth_error_app1 by (rewrite map_length; lia). rewrite !nth_error_map, Q0, Q03. cbn. congruence.
    - exact Qc3.
    - apply (joined_chain step step _ _ n); [rewrite map_length; exact Ln|exact Hq|exact Hshift|exact Qc|exact Qc2].
    - intros k x y z _ _ _ (l & w & p & p' & w' & N & D) (l' & v & s & s' & v' & N' & D'). assert (l = l') by congruence. subst l'. exact (Hcall _ _ _ _ _ _ _ _ _ _ _ _ D D'). }
  split; [apply agree_same, G|]. intros K1 K2 K3 Hs. apply agree_eq; [apply G|]. rewrite joined_length. unfold complete in *. lia.
Qed.
Print Assumptions C112_approximate.

(** C109: with fewer steps a call that returned still returns *)
Lemma for_range_shorter {V} (body : nat -> V -> res (V * bool)) : forall n m i v v', m <= n -> for_range body i n v = Ok v' -> exists w, for_range body i m v = Ok w.
Proof.
  induction n as [|n IH]; intros [|m] i v v' Hm E; cbn in *; try lia; try (eexists; reflexivity). destruct (body i v) as [[x b]|] eqn:Eb; cbn [bind fst snd] in *; [|discriminate].
  destruct b; [eexists; reflexivity|]. exact (IH m (S i) x v' ltac:(lia) E).
Qed.

Theorem C109_shift_returns : forall St P Om U Z descend cost state (p0 : P) kw kw' (r : retval (item St P Om U Z)), ps_accepts kw -> ps_accepts kw' ->
  parameter_shift_optimizer descend cost state RetPlain p0 kw = Ok r ->
  the_eta kw = the_eta kw' -> the_tol kw = the_tol kw' -> (forall name, In name ["return_state"; "return_params"] -> the_flag kw name = the_flag kw' name) -> the_steps kw' <= the_steps kw ->
  exists r' : retval (item St P Om U Z), parameter_shift_optimizer descend cost state RetPlain p0 kw' = Ok r'.
Proof.
  intros St P Om U Z descend cost state p0 kw kw' r A A' E He Ht Hf Hs. unfold parameter_shift_optimizer in *.
  assert (C : forall k, ps_accepts k -> ps_checked k) by (intros k (A1 & A2 & A3 & A4); repeat (split; [assumption|]); apply A4; simpl; tauto).
  assert (B : forall k, ps_accepts k -> kw_get k "return_params" (PyBool false) = PyBool (the_flag k "return_params")).
  { intros k (_ & _ & _ & A4). rewrite kw_get_arg. unfold the_flag. specialize (A4 "return_params" ltac:(simpl; tauto)). destruct (arg k "return_params") as [v|] eqn:Ev; [|reflexivity].
    destruct (A4 v Ev) as (b & ->). reflexivity. }
  destruct (ps_cases kw) as [[_ Ev]|[Hn _]]; [|elim Hn; auto]. destruct (ps_cases kw') as [[_ Ev']|[Hn _]]; [|elim Hn; auto]. rewrite Ev in E. rewrite Ev'. cbn [bind] in *.
  rewrite (B kw A) in E. rewrite (B kw' A'). rewrite <- He, <- Ht, <- !Hf by (simpl; tauto). unfold ps_run in *. cbn [ps_state ps_params ps_nsteps] in *.
  destruct (if the_flag kw "return_state" then _ else _) as [ss|]; cbn [bind] in *; [|discriminate]. destruct (cost p0) as [c|]; cbn [bind] in *; [|discriminate].
  destruct (for_range _ _ (the_steps kw) _) as [v|] eqn:Ef; cbn [bind] in *; [|discriminate].
  destruct (for_range_shorter _ _ _ _ _ _ Hs Ef) as (w & Ew). match goal with |- context [for_range ?b 0 (the_steps kw') ?v0] => change (for_range b 0 (the_steps kw') v0) with (for_range (ps_body descend cost state (mkps (the_steps kw) (the_eta kw) (the_tol kw) (the_flag kw "return_state") (PyBool (the_flag kw "return_params")))) 0 (the_steps kw') v0) end.
  rewrite Ew. cbn [bind]. destruct (sum_below_one _ _) as [b|]; cbn [bind] in *; [|discriminate]. destruct b; eexists; reflexivity.
Qed.
Print Assumptions C109_shift_returns.

Theorem C109_exact_returns : forall St P Om U Z flow cost state perturb start kw kw' (r : retval (item St P Om U Z)), ex_accepts kw -> ex_accepts kw' ->
  exact_lie_optimizer flow cost state perturb RetState start kw = Ok r ->
  the_eta kw = the_eta kw' -> the_tol kw = the_tol kw' ->
  (forall name, In name ["return_state"; "perturbation"; "return_perturbations"; "return_unitary"] -> the_flag kw name = the_flag kw' name) -> the_steps kw' <= the_steps kw ->
  exists r' : retval (item St P Om U Z), exact_lie_optimizer flow cost state perturb RetState start kw' = Ok r'.
Proof.
  intros St P Om U Z flow cost state perturb start kw kw' r A A' E He Ht Hf Hs. unfold exact_lie_optimizer in *.
  destruct (ex_cases kw) as [[_ Ev]|[Hn _]]; [|contradiction]. destruct (ex_cases kw') as [[_ Ev']|[Hn _]]; [|contradiction]. rewrite Ev in E. rewrite Ev'. cbn [bind] in *.
  rewrite <- He, <- Ht, <- !Hf by (simpl; tauto). destruct start as [u0|]; cbn [bind] in *; [|discriminate]. unfold ex_run in *. cbn [ex_state ex_nsteps ex_perturbations ex_unitary] in *.
  destruct (if the_flag kw "return_state" then _ else _) as [ss|]; cbn [bind] in *; [|discriminate]. destruct (cost u0) as [c|]; cbn [bind] in *; [|discriminate].
  destruct (for_range _ _ (the_steps kw) _) as [v|] eqn:Ef; cbn [bind] in *; [|discriminate].
  destruct (for_range_shorter _ _ _ _ _ _ Hs Ef) as (w & Ew).
  match goal with |- context [for_range ?b 0 (the_steps kw') ?v0] => change (for_range b 0 (the_steps kw') v0) with
    (for_range (ex_body flow cost state perturb (mkex (the_steps kw) (the_eta kw) (the_tol kw) (the_flag kw "return_state") (the_flag kw "perturbation") (the_flag kw "return_perturbations") (the_flag kw "return_unitary"))) 0 (the_steps kw') v0) end.
  rewrite Ew. cbn [bind]. destruct (count_true _ <? 1); eexists; reflexivity.
Qed.
Print Assumptions C109_exact_returns.

Theorem C109_approximate_returns : forall St P Om U Z W call su_state directions cost state perturb layers (w0 : W) start p0 kw kw' (r : retval (item St P Om U Z)),
  ap_accepts layers kw -> ap_accepts layers kw' -> approximate_lie_optimizer call su_state directions cost state perturb RetState layers w0 start p0 kw = Ok r ->
  the_eta kw = the_eta kw' -> the_opt_tol kw = the_opt_tol kw' ->
  (forall name, In name ["return_state"; "return_omegas"; "return_unitary"; "return_gates"; "perturb"; "return_perturbations"; "return_zassenhaus"] -> the_flag kw name = the_flag kw' name) ->
  the_steps kw' <= the_steps kw ->
  exists r' : retval (item St P Om U Z), approximate_lie_optimizer call su_state directions cost state perturb RetState layers w0 start p0 kw' = Ok r'.
Proof.
  intros St P Om U Z W call su_state directions cost state perturb layers w0 start p0 kw kw' r A A' E He Ht Hf Hs. unfold approximate_lie_optimizer in *.
  destruct (ap_cases layers kw) as [[_ (ls & Hl & Ev)]|[Hn _]]; [|contradiction]. destruct (ap_cases layers kw') as [[_ (ls' & Hl' & Ev')]|[Hn _]]; [|contradiction]. rewrite Ev in E. rewrite Ev'. cbn [bind] in *.
  assert (ls' = ls) as -> by (unfold the_layers in *; rewrite Hl in Hl'; injection Hl' as H; symmetry; apply map_some_inj; exact H).
  rewrite <- He, <- Ht, <- !Hf by (simpl; tauto). destruct start as [u0|]; cbn [bind] in *; [|discriminate]. unfold ap_run in *. cbn [ap_state ap_nsteps ap_unitary] in *.
  destruct (if the_flag kw "return_state" then _ else _) as [ss|]; cbn [bind] in *; [|discriminate]. destruct (cost u0) as [c|]; cbn [bind] in *; [|discriminate].
  destruct (for_range _ _ (the_steps kw) _) as [v|] eqn:Ef; cbn [bind] in *; [|discriminate].
  destruct (for_range_shorter _ _ _ _ _ _ Hs Ef) as (w & Ew).
  match type of Ew with for_range ?b _ _ _ = _ => match goal with |- context [for_range ?b' 0 (the_steps kw') ?v0] => change (for_range b' 0 (the_steps kw') v0) with (for_range b 0 (the_steps kw') v0) end end.
  rewrite Ew. cbn [bind]. destruct (count_true _ <? 1); eexists; reflexivity.
Qed.
Print Assumptions C109_approximate_returns.

(** Two layers that append their number, the cost is the number of calls: all
    histories for four steps, the costs and labels of two, and a resumed run. *)
Definition append_call (l : nat) (w : unit) (u : list nat) (p : unit) : res (list nat * unit * unit) := Ok (u ++ [l], p, w).
Definition append_run kw u := approximate_lie_optimizer append_call (fun l _ => Ok (l + 1)) (fun _ _ _ => Ok tt) (fun u => Ok (INR (List.length u))) (fun u => Ok u) (fun _ _ u => u) RetState (AList [Some 5; Some 6]) tt (Ok u) tt kw.
Definition kw_four := [("nsteps", PyInt 4); ("tol", PyNone); ("return_unitary", PyBool true); ("return_zassenhaus", PyBool true)].
Definition kw_two := [("nsteps", PyInt 2); ("tol", PyNone); ("return_unitary", PyBool true); ("return_zassenhaus", PyBool true)].
Definition kw_plain := [("nsteps", PyInt 4); ("tol", PyNone)].

Ltac accepts := unfold ap_accepts, ex_accepts, allowed, arg; cbn;
  repeat match goal with
  | |- _ /\ _ => split
  | |- exists l, AList _ = _ => exists [5; 6]; reflexivity
  | |- forall v, Some _ = Some v -> _ => let v := fresh in let H := fresh in intros v H; injection H as <-
  | |- forall v, None = Some v -> _ => intros; discriminate
  | |- PyNone = PyNone \/ _ => left; reflexivity
  | |- int_from_1 (PyInt ?z) => right; exists z; split; [reflexivity|lia]
  | |- forall name, _ -> _ => let n := fresh in let H := fresh in let v := fresh in let H' := fresh in intros n H v H'; intuition; subst; cbn in H'; try discriminate; injection H' as <-; eexists; reflexivity
  end; try (intros; discriminate).

Lemma append_eval kw u : ap_accepts (AList [Some 5; Some 6]) kw -> append_run kw u = ap_run append_call (fun l _ => Ok (l + 1)) (fun _ _ _ => Ok tt) (fun u => Ok (INR (List.length u))) (fun u => Ok u) (fun _ _ u => u)
  (mkap [5; 6] (the_steps kw) (the_eta kw) (the_opt_tol kw) (the_flag kw "return_state") (the_flag kw "return_omegas") (the_flag kw "return_unitary") (the_flag kw "return_gates") (the_flag kw "perturb") (the_flag kw "return_perturbations") (the_flag kw "return_zassenhaus")) tt u tt.
Proof.
  intros A. unfold append_run, approximate_lie_optimizer. destruct (ap_cases (AList [Some 5; Some 6]) kw) as [[_ (ls & Hls & Ev)]|[Hn _]]; [|contradiction]. rewrite Ev.
  assert (ls = [5; 6]) as ->. { unfold the_layers in Hls. injection Hls as H. destruct ls as [|x [|y [|z l]]]; try discriminate. simpl in H. congruence. } reflexivity.
Qed.

Example C109_case : ap_accepts (AList [Some 5; Some 6]) kw_four /\ ap_accepts (AList [Some 5; Some 6]) kw_two /\ the_steps kw_two = 2 /\ the_opt_tol kw_four = the_opt_tol kw_two /\
  append_run kw_four [] = Ok (RTuple [ItCosts [INR 0; INR 1; INR 2; INR 3; INR 4]; ItUnitaries [[]; [5]; [5; 6]; [5; 6; 5]; [5; 6; 5; 6]]; ItZassenhaus [6; 7; 6; 7]]) /\
  append_run kw_two [] = Ok (RTuple [ItCosts [INR 0; INR 1; INR 2]; ItUnitaries [[]; [5]; [5; 6]]; ItZassenhaus [6; 7]]).
Proof.
  assert (A : ap_accepts (AList [Some 5; Some 6]) kw_four) by accepts. assert (B : ap_accepts (AList [Some 5; Some 6]) kw_two) by accepts.
  split; [exact A|]. split; [exact B|]. split; [reflexivity|]. split; [reflexivity|]. rewrite (append_eval kw_four _ A), (append_eval kw_two _ B). split; reflexivity.
Qed.

Example C111_case : ap_accepts (AList [Some 5; Some 6]) kw_plain /\ append_run kw_plain [] = Ok (RList [INR 0; INR 1; INR 2; INR 3; INR 4]).
Proof. assert (A : ap_accepts (AList [Some 5; Some 6]) kw_plain) by accepts. split; [exact A|]. rewrite (append_eval kw_plain _ A). reflexivity. Qed.

Example C112_case : append_run kw_two [5; 6] = Ok (RTuple [ItCosts [INR 2; INR 3; INR 4]; ItUnitaries [[5; 6]; [5; 6; 5]; [5; 6; 5; 6]]; ItZassenhaus [6; 7]]) /\
  joined [INR 0; INR 1; INR 2] [INR 2; INR 3; INR 4] = [INR 0; INR 1; INR 2; INR 3; INR 4].
Proof. split; [|reflexivity]. rewrite (append_eval kw_two _ (proj1 (proj2 C109_case))). reflexivity. Qed.

(** resumed inside a cycle the layers are out of step *)
Example C112_inside_cycle : exists kw, ap_accepts (AList [Some 5; Some 6]) kw /\ append_run kw [] = Ok (RTuple [ItCosts [INR 0; INR 1]; ItUnitaries [[]; [5]]]) /\
  exists cs z, append_run kw_two [5] = Ok (RTuple [ItCosts cs; ItUnitaries [[5]; [5; 5]; [5; 5; 6]]; ItZassenhaus z]).
Proof.
  exists [("nsteps", PyInt 1); ("tol", PyNone); ("return_unitary", PyBool true)]. assert (A : ap_accepts (AList [Some 5; Some 6]) [("nsteps", PyInt 1); ("tol", PyNone); ("return_unitary", PyBool true)]) by accepts.
  split; [exact A|]. rewrite (append_eval _ _ A), (append_eval kw_two _ (proj1 (proj2 C109_case))). split; [reflexivity|]. do 2 eexists. reflexivity.
Qed.

(** with the default tolerance a constant cost stops the run that makes all its steps
    without a tolerance *)
Example C110_case : let kw := [("tol", PyNone)] in let kw' := @nil (string * pyv) in looser (the_opt_tol kw) (the_opt_tol kw') /\
  let run kw := approximate_lie_optimizer (Om := nat) (Z := nat) (P := nat) (fun _ (w : nat) (u : nat) p => Ok (u, p, w)) (fun _ _ => Ok 0) (fun _ _ _ => Ok 0) flat_cost flat_state bump RetState (AList [Some 0]) 0 (Ok 9) 0 kw in
  exists cs cs', run kw = Ok (RList cs) /\ run kw' = Ok (RList cs') /\ List.length cs = 41 /\ List.length cs' = 11.
Proof.
  intros kw kw'. split; [exact I|]. intros run.
  assert (L0 : exists l, AList [Some 0] = AList (map Some l)) by (exists [0]; reflexivity).
  assert (A : ap_accepts (AList [Some 0]) kw) by (split; [exact L0|accepts]). assert (A' : ap_accepts (AList [Some 0]) kw') by (split; [exact L0|accepts]).
  assert (T : forall k, ap_accepts (AList [Some 0]) k -> exists r, run k = Ok r).
  { intros k Ak. assert (Tot : ap_total (P := nat) (fun _ (w : nat) (u : nat) p => Ok (u, p, w)) (fun _ _ => Ok 0) (fun _ _ _ => Ok 0) flat_cost flat_state).
    { unfold ap_total, flat_cost, flat_state. split; [intros; eexists; reflexivity|]. split; [intros; eexists; reflexivity|]. split; [intros; eexists; reflexivity|]. split; intros; eexists; reflexivity. }
    exact (proj1 (C55_approximate_arguments nat nat nat nat nat nat RetState (AList [Some 0]) k) (conj eq_refl Ak) ltac:(discriminate) _ _ _ _ _ bump 0 9 0 Tot). }
  destruct (T kw A) as (r & Er). destruct (T kw' A') as (r' & Er').
  destruct (C60_approximate_shape _ _ _ _ _ _ _ _ _ _ _ _ _ _ _ _ kw r A Er) as (cs & ss & os & us & ps & zs & R). destruct (C60_approximate_shape _ _ _ _ _ _ _ _ _ _ _ _ _ _ _ _ kw' r' A' Er') as (cs' & ss' & os' & us' & ps' & zs' & R').
  exists cs, cs'. split; [rewrite Er, R; reflexivity|]. split; [rewrite Er', R'; reflexivity|].
  split; [exact (proj1 (proj2 (C57_approximate_stop _ _ _ _ _ _ _ _ _ _ _ _ _ _ _ _ kw r cs ss os us ps zs A Er R eq_refl)) eq_refl)|].
  destruct (C57_approximate_stop _ _ _ _ _ _ _ _ _ _ _ _ _ _ _ _ kw' r' cs' ss' os' us' ps' zs' A' Er' R' eq_refl) as ((n & Hl & Hn & H1 & H2) & _).
  destruct (C56_C59_approximate_histories _ _ _ _ _ _ _ _ _ _ _ _ _ _ _ _ kw' r' cs' ss' os' us' ps' zs' A' Er' R') as (q & _ & _ & _ & _ & _ & _ & _ & _ & _ & Hc & _).
  assert (Z0 : Forall (eq 0%R) cs'). { clear - Hc. induction Hc as [|x c q cs E _ IH]; constructor; [unfold flat_cost in E; congruence|exact IH]. }
  change (the_steps kw') with 40 in *. change (the_opt_tol kw') with (Some (Fin (/ 1000))) in *.
  assert (n < 11). { destruct (Nat.lt_ge_cases n 11) as [H|H]; [exact H|]. exfalso. apply (H1 9); [lia|]. apply flat_stalls; [exact Z0|lra|lia|lia]. }
  destruct (H2 ltac:(lia)) as (H3 & _). lia.
Qed.
