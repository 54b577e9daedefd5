(** SquaredLieAlgebraLayer with commute=True: the keys tied for the largest
    gradient, the commuting subset and the rotations applied. *)
From Coq Require Import ZArith Arith Lia Bool String Sorted Reals Lra Ring Setoid Morphisms Permutation.
From Coquelicot Require Import Coquelicot.
From Verif Require Import Py StarRing Matrix Cplx PauliSpec Bits PauliBasis Expm UtilsModel UtilsProofs CircuitModel CircuitProofs CircuitProofs2
  AlgebraModel AlgebraProofs LayerModel LayerProofs LayerProofs2 CommProofs GreedyModel RotoProofs RotoProofs2 GreedyProofs RotoWitness AdaptModel AdaptProofs
  EdgeModel EdgeSpec EdgeProofs EdgeProofs2 EdgeProofs3 OptimizerModel ZasV2Proofs ApproxProofs CommuteModel.
From Verif Require Import PropAlgebra PropLayers PropGreedy.
From Coq Require Import List.
Import ListNotations.
Local Open Scope nat_scope.

Add Ring CrComm : C_ring_theory.

(** ** Specification *)

(** m is the largest value of g in the table, the excluded key left out *)
Definition largest (g : arr C -> R) (excluded : option key) (table : list (key * arr C)) (m : R) : Prop :=
  (exists k P, In (k, P) table /\ Some k <> excluded /\ g P = m) /\
  (forall k P, In (k, P) table -> Some k <> excluded -> (g P <= m)%R).

(** the key k has a value within 0.001 + 0.00001 m of the largest value m *)
Definition tied (g : arr C -> R) (excluded : option key) (table : list (key * arr C)) (k : key) : Prop :=
  exists P m, In (k, P) table /\ Some k <> excluded /\ largest g excluded table m /\
    (Rabs (g P - m) <= / 1000 + / 100000 * m)%R.

(** V is U followed by exp(-i t/2 P) for the listed keys and angles, in order *)
Inductive turned (n : nat) (table : list (key * arr C)) : list (key * R) -> mat C -> mat C -> Prop :=
| turned_nil U V : meq (2 ^ n) U V -> turned n table [] U V
| turned_cons k t r P U V : In (k, P) table -> turned n table r (rotated n (a_ent P) (t / 2) U) V -> turned n table ((k, t) :: r) U V.

Definition apart (q q' : list nat) : Prop := forall x, In x q -> In x q' -> False.

(** ** The largest value and the ties *)
Lemma fold_max_spec (r : list (key * R)) : forall v,
  (v <= fold_left (fun m kv => Rmax m (snd kv)) r v)%R /\
  Forall (fun x => (snd x <= fold_left (fun m kv => Rmax m (snd kv)) r v)%R) r /\
  (fold_left (fun m kv => Rmax m (snd kv)) r v = v \/ exists x, In x r /\ snd x = fold_left (fun m kv => Rmax m (snd kv)) r v).
Proof.
  induction r as [|x r IH]; intros v; cbn [fold_left]; [split; [lra|split; [constructor|auto]]|].
  destruct (IH (Rmax v (snd x))) as (H1 & H2 & H3). pose proof (Rmax_l v (snd x)). pose proof (Rmax_r v (snd x)).
  split; [lra|]. split; [constructor; [lra|exact H2]|].
  destruct H3 as [H3|(y & Hy & E)]; [|right; exists y; split; [right; auto|auto]].
  destruct (Rle_dec v (snd x)) as [h|h]; [rewrite (Rmax_right _ _ h) in *; right; exists x; split; [left; auto|auto]|].
  rewrite (Rmax_left v (snd x)) in * by lra. left; exact H3.
Qed.

Lemma max_value_spec l m : max_value l = Ok m -> (exists x, In x l /\ snd x = m) /\ forall x, In x l -> (snd x <= m)%R.
Proof.
  destruct l as [|[k v] r]; cbn [max_value]; [discriminate|]. intros E. injection E as <-.
  destruct (fold_max_spec r v) as (H1 & H2 & H3). split.
  - destruct H3 as [H3|(y & Hy & E)]; [exists (k, v); split; [left; auto|symmetry; exact H3]|exists y; split; [right; auto|exact E]].
  - intros x [<-|Hx]; [exact H1|]. rewrite Forall_forall in H2. apply H2, Hx.
Qed.

Lemma filter_map_comm {A B} (f : A -> B) (c : B -> bool) l : filter c (map f l) = map f (filter (fun x => c (f x)) l).
Proof. induction l as [|x l IH]; [reflexivity|]. cbn. destruct (c (f x)); cbn; congruence. Qed.
Lemma filter_filter {A} (c c' : A -> bool) l : filter c (filter c' l) = filter (fun x => c' x && c x) l.
Proof. induction l as [|x l IH]; [reflexivity|]. cbn. destruct (c' x); cbn; [destruct (c x); cbn; congruence|exact IH]. Qed.

Lemma dir_filter (g : arr C -> R) d (l : list (key * arr C)) :
  map (fun kv => snd (fst kv)) (filter (fun x => String.eqb (fst (fst x)) d) l) =
  map (fun kv => snd (fst kv)) (filter (fun kv => String.eqb (fst (fst kv)) d) (map (fun kv => (fst kv, g (snd kv))) l)).
Proof. induction l as [|[[d1 q1] P1] l IH]; [reflexivity|]. cbn [map filter fst snd]. destruct (String.eqb d1 d); cbn [map fst snd]; congruence. Qed.

Lemma NoDup_dir (c : key * arr C -> bool) d (t : list (key * arr C)) : NoDup (map fst t) ->
  NoDup (map (fun kv => snd (fst kv)) (filter (fun x => c x && String.eqb (fst (fst x)) d) t)).
Proof.
  induction t as [|[[d1 q1] P1] t IH]; [constructor|]. intros Hnd. inversion Hnd as [|? ? Hk Hd]; subst. cbn [filter fst].
  match goal with |- context [if ?b && _ then _ else _] => destruct b end; cbn [andb]; [|exact (IH Hd)]. destruct (String.eqb d1 d) eqn:E; [|exact (IH Hd)]. cbn [map fst snd]. constructor; [|apply IH; exact Hd].
  apply String.eqb_eq in E. subst d1. intros H. apply Hk.
  apply in_map_iff in H. destruct H as ([[d2 q2] P2] & E & H). apply filter_In in H. destruct H as [H1 H2]. apply andb_true_iff in H2. destruct H2 as [_ H2].
  apply String.eqb_eq in H2. cbn [fst snd] in *. subst. apply (in_map fst) in H1. exact H1.
Qed.

Lemma largest_unique g ex table m m' : largest g ex table m -> largest g ex table m' -> m = m'.
Proof.
  intros [(k & P & H1 & H2 & <-) H3] [(k' & P' & H4 & H5 & <-) H6]. specialize (H3 _ _ H4 H5). specialize (H6 _ _ H1 H2). lra.
Qed.

Lemma NoDup_value {A B} (d : list (A * B)) k v v' : NoDup (map fst d) -> In (k, v) d -> In (k, v') d -> v = v'.
Proof.
  induction d as [|[k0 w] d IH]; [intros _ []|]. cbn [map fst]. intros Hn H1 H2. inversion Hn as [|? ? Hk Hd]; subst.
  destruct H1 as [H1|H1], H2 as [H2|H2].
  - congruence.
  - injection H1 as <- <-. exfalso. apply Hk. apply (in_map fst) in H2. exact H2.
  - injection H2 as <- <-. exfalso. apply Hk. apply (in_map fst) in H1. exact H1.
  - exact (IH Hd H1 H2).
Qed.

Section Tied.
Context (g : arr C -> R) (Hg : forall P, (0 <= g P)%R) (ex : option key) (table : list (key * arr C)) (Hnd : NoDup (map fst table)).

Let adm := filter (fun kv => negb (is_prev ex (fst kv))) table.
Let om := map (fun kv => (fst kv, g (snd kv))) adm.

Lemma adm_In k P : In (k, P) adm <-> In (k, P) table /\ Some k <> ex.
Proof. unfold adm. rewrite filter_In. cbn [fst]. rewrite is_prev_spec. reflexivity. Qed.

Lemma max_largest m : max_value om = Ok m -> largest g ex table m.
Proof.
  intros E. destruct (max_value_spec _ _ E) as [(x & Hx & Ex) Hm]. split.
  - unfold om in Hx. apply in_map_iff in Hx. destruct Hx as ([k P] & <- & Hx). apply adm_In in Hx. exists k, P. cbn [snd] in Ex. tauto.
  - intros k P H1 H2. apply (Hm (k, g P)). unfold om. apply in_map_iff. exists (k, P). split; [reflexivity|]. apply adm_In. auto.
Qed.

Definition closeb (m : R) (x : key * arr C) : bool := negb (is_prev ex (fst x)) && isclose (Fin (/ 1000)) (g (snd x)) m.

Lemma closeb_tied m k P : largest g ex table m -> In (k, P) table -> closeb m (k, P) = true <-> tied g ex table k.
Proof.
  intros Hm Hin. unfold closeb. rewrite andb_true_iff. cbn [fst snd isclose]. rewrite is_prev_spec, Rleb_true.
  assert (H0 : (0 <= m)%R) by (destruct Hm as [(k0 & P0 & _ & _ & <-) _]; apply Hg).
  rewrite (Rabs_right m) by lra. split.
  - intros [H1 H2]. exists P, m. auto.
  - intros (P' & m' & H1 & H2 & H3 & H4). rewrite (NoDup_value _ _ _ _ Hnd Hin H1), (largest_unique _ _ _ _ _ Hm H3). auto.
Qed.

Lemma tied_edges_spec d es : tied_edges om = Ok (d, es) ->
  NoDup es /\ (forall q, In q es <-> tied g ex table (d, q)) /\
  exists l1 q0 P0 l2, table = l1 ++ ((d, q0), P0) :: l2 /\ tied g ex table (d, q0) /\ Forall (fun x => ~ tied g ex table (fst x)) l1.
Proof.
  unfold tied_edges. intros E. apply bind_ok in E. destruct E as (m & Em & E). pose proof (max_largest m Em) as Hm.
  cbv zeta in E. assert (Ef : filter (fun kv : key * R => isclose (Fin (/ 1000)) (snd kv) m) om = map (fun kv => (fst kv, g (snd kv))) (filter (closeb m) table)).
  { unfold om, adm. rewrite filter_map_comm, filter_filter. reflexivity. }
  rewrite Ef in E. apply bind_ok in E. destruct E as (x & Ex & E). destruct (filter (closeb m) table) as [|[[d0 q0] P0] r] eqn:Er; [discriminate|].
  injection Ex as <-. injection E as Ed Ees. cbn [fst snd] in Ed, Ees. subst d0.
  change (((d, q0), g P0) :: map (fun kv : key * arr C => (fst kv, g (snd kv))) r) with (map (fun kv : key * arr C => (fst kv, g (snd kv))) (((d, q0), P0) :: r)) in Ees.
  assert (Hes : es = map (fun kv : key * arr C => snd (fst kv)) (filter (fun x => closeb m x && String.eqb (fst (fst x)) d) table)).
  { rewrite <- Ees, <- filter_filter, Er. symmetry. exact (dir_filter g d (((d, q0), P0) :: r)). }
  clear Ees. split; [|split].
  - rewrite Hes. apply NoDup_dir, Hnd.
  - intros q. rewrite Hes, in_map_iff. split.
    + intros ([[d1 q1] P1] & E & H). apply filter_In in H. destruct H as [H1 H2]. apply andb_true_iff in H2. destruct H2 as [H2 H3]. apply String.eqb_eq in H3.
      cbn [fst snd] in *. subst. apply (closeb_tied m (d, q) P1); auto.
    + intros H. pose proof H as (P & _ & Hin & _). exists ((d, q), P). split; [reflexivity|]. apply filter_In. split; [exact Hin|].
      apply andb_true_iff. split; [apply (closeb_tied m (d, q) P); auto|]. cbn [fst]. apply String.eqb_refl.
  - destruct (filter_split (closeb m) ((d, q0), P0) table [] r Er) as (l1 & l2 & E & E1 & _). exists l1, q0, P0, l2. split; [exact E|].
    assert (Hin : forall x, In x l1 -> In x table) by (intros x Hx; rewrite E; apply in_or_app; auto).
    split.
    + assert (H : In ((d, q0), P0) (filter (closeb m) table)) by (rewrite Er; left; reflexivity). apply filter_In in H. apply (closeb_tied m (d, q0) P0); tauto.
    + apply Forall_forall. intros [k P] Hx Ht. cbn [fst] in Ht. apply (closeb_tied m k P Hm (Hin _ Hx)) in Ht.
      assert (H : In (k, P) []) by (rewrite <- E1; apply filter_In; auto). exact H.
Qed.

Lemma tied_edges_ok : adm <> [] -> exists d es, tied_edges om = Ok (d, es).
Proof.
  intros Hne. unfold tied_edges. assert (Em : exists m, max_value om = Ok m) by (unfold om; destruct adm as [|[k P] r]; [congruence|eexists; reflexivity]).
  destruct Em as (m & Em). rewrite Em. cbn [bind]. cbv zeta. destruct (max_value_spec _ _ Em) as [(x & Hx & Ex) Hm].
  destruct (filter (fun kv : key * R => isclose (Fin (/ 1000)) (snd kv) m) om) as [|y r] eqn:Ef.
  - exfalso. assert (H : In x []); [|exact H]. rewrite <- Ef. apply filter_In. split; [exact Hx|]. cbn [isclose]. apply Rleb_true. rewrite Ex.
    replace (m - m)%R with 0%R by ring. rewrite Rabs_R0. pose proof (Rabs_pos m). lra.
  - eexists _, _. reflexivity.
Qed.
End Tied.

(** ** The commuting subset *)
Definition pair_of (e : list nat) : nat * nat := (nth 0 e 0, nth 1 e 0).

Lemma pair_list e : List.length e = 2 -> [fst (pair_of e); snd (pair_of e)] = e.
Proof. destruct e as [|a [|b [|? ?]]]; try discriminate. reflexivity. Qed.

Lemma forallb_len k es : Forall (fun e : list nat => List.length e = k) es -> es <> [] -> forallb (fun e => Nat.eqb (List.length e) 2) es = Nat.eqb k 2.
Proof.
  intros H Hne. destruct es as [|e es]; [congruence|]. inversion H as [|? ? He Hr]; subst. cbn [forallb].
  destruct (Nat.eqb_spec (List.length e) 2) as [E|E]; [|reflexivity]. cbn [andb]. rewrite E in Hr. clear - Hr.
  induction Hr as [|x l Hx Hl IH]; [reflexivity|]. cbn [forallb]. rewrite Hx. exact IH.
Qed.

(** tuples of strictly growing qubits come back or are turned around *)
Lemma commuting_In fa fh fk rnd k es edges : commuting fa fh fk rnd k es = Ok edges ->
  forall e, In e edges -> In e es \/ exists a b, e = [a; b] /\ In [b; a] es.
Proof.
  unfold commuting. destruct (forallb _ es) eqn:Ef; [|intros E; injection E as <-; auto]. intros E.
  apply bind_ok in E. destruct E as ([l k'] & E & E2). cbn [fst] in E2. injection E2 as <-. intros e He.
  apply in_map_iff in He. destruct He as ([a b] & <- & He). cbn [fst snd].
  assert (Hlen : forall e, In e es -> List.length e = 2) by (rewrite forallb_forall in Ef; intros e Hi; apply Nat.eqb_eq, Ef, Hi).
  destruct (commuting_subset _ _ _ _ _ _ _ _ E a b He) as [H|H]; apply in_map_iff in H; destruct H as (e & Ee & Hin); fold (pair_of e) in Ee;
    pose proof (pair_list e (Hlen e Hin)) as Ep; rewrite Ee in Ep; cbn [fst snd] in Ep; subst e; [left; exact Hin|right; exists a, b; auto].
Qed.

Definition grows (e : list nat) : Prop := StronglySorted lt e.

Lemma grows_pair a b : grows [a; b] -> a < b.
Proof. intros H. inversion H as [|? ? _ H1]; subst. inversion H1; auto. Qed.

Lemma no_loops_grow es : Forall grows es -> Forall (fun e : list nat => List.length e = 2) es -> no_loops (map pair_of es).
Proof.
  intros Hg Hl u v H. apply in_map_iff in H. destruct H as (e & E & Hin). rewrite Forall_forall in Hg, Hl.
  pose proof (pair_list e (Hl e Hin)) as Ep. rewrite E in Ep. cbn [fst snd] in Ep. specialize (Hg e Hin). rewrite <- Ep in Hg. apply grows_pair in Hg. lia.
Qed.

Lemma unrolled_NoDup es : NoDup es -> Forall grows es -> Forall (fun e : list nat => List.length e = 2) es ->
  (forall q q', In q es -> In q' es -> q <> q' -> apart q q') -> NoDup (flat_map (fun e => [fst e; snd e]) (map pair_of es)).
Proof.
  induction es as [|e es IH]; [constructor|]. intros Hn Hg Hl Ha. inversion Hn as [|? ? Hx Hn']; subst. inversion Hg as [|? ? Hge Hg']; subst.
  inversion Hl as [|? ? Hle Hl']; subst. cbn [map flat_map app].
  assert (IH' : NoDup (flat_map (fun e => [fst e; snd e]) (map pair_of es))) by (apply IH; auto; intros; apply Ha; simpl; auto).
  pose proof (pair_list e Hle) as Ep. pose proof Hge as Hlt. rewrite <- Ep in Hlt. apply grows_pair in Hlt.
  assert (Hout : forall x, In x e -> ~ In x (flat_map (fun e => [fst e; snd e]) (map pair_of es))).
  { intros x Hxe Hxf. apply in_flat_map in Hxf. destruct Hxf as (p & Hp & Hxp). apply in_map_iff in Hp. destruct Hp as (e' & <- & He').
    rewrite Forall_forall in Hl'. rewrite (pair_list e' (Hl' e' He')) in Hxp. refine (Ha e e' _ _ _ x Hxe Hxp); simpl; auto. intros ->. contradiction. }
  constructor; [|constructor].
  - intros [H|H]; [lia|]. apply (Hout (fst (pair_of e))); [rewrite <- Ep at 2; left; reflexivity|exact H].
  - apply Hout. rewrite <- Ep at 2. right; left; reflexivity.
  - exact IH'.
Qed.

Lemma map_pair_list es : Forall (fun e : list nat => List.length e = 2) es -> map (fun e => [fst e; snd e]) (map pair_of es) = es.
Proof. induction 1 as [|e es He H IH]; [reflexivity|]. cbn [map]. rewrite (pair_list e He), IH. reflexivity. Qed.

(** when the tied tuples do not overlap all of them are kept *)
Lemma commuting_all fa fh fk rnd k es len : es <> [] -> Forall (fun e : list nat => List.length e = len) es -> Forall grows es -> NoDup es ->
  (forall q q', In q es -> In q' es -> q <> q' -> apart q q') -> commuting fa fh fk rnd k es = Ok es.
Proof.
  intros Hne Hl Hg Hn Ha. unfold commuting. rewrite (forallb_len len es Hl Hne). destruct (Nat.eqb_spec len 2) as [->|_]; [|reflexivity].
  fold pair_of. change (fun e : list nat => (nth 0 e 0, nth 1 e 0)) with pair_of. unfold get_commuting_set.
  pose proof (unrolled_NoDup es Hn Hg Hl Ha) as Hu. apply length_nodup_NoDup in Hu. rewrite Hu. cbn [bind fst]. rewrite (map_pair_list es Hl). reflexivity.
Qed.

Lemma commuting_apart fa fh fk rnd k es edges : Forall grows es -> commuting fa fh fk rnd k es = Ok edges ->
  Forall (fun e : list nat => List.length e = 2) es -> coloring_succeeds fa fh fk rnd k (map pair_of es) ->
  NoDup edges /\ (forall q q', In q edges -> In q' edges -> q <> q' -> apart q q').
Proof.
  intros Hg E Hl Hc. unfold commuting in E. assert (Ef : forallb (fun e : list nat => Nat.eqb (List.length e) 2) es = true).
  { apply forallb_forall. intros e He. rewrite Forall_forall in Hl. apply Nat.eqb_eq, Hl, He. }
  rewrite Ef in E. change (fun e : list nat => (nth 0 e 0, nth 1 e 0)) with pair_of in E. apply bind_ok in E. destruct E as ([l k'] & E & E2).
  cbn [fst] in E2. injection E2 as <-. pose proof (commuting_disjoint _ _ _ _ _ _ _ _ (no_loops_grow es Hg Hl) E (or_intror Hc)) as Hd. clear - Hd.
  induction Hd as [|e l He Hd [IH1 IH2]]; [split; [constructor|intros ? ? []]|]. cbn [map]. rewrite Forall_forall in He. split.
  - constructor; [|exact IH1]. intros H. apply in_map_iff in H. destruct H as (f & Ef & Hf). destruct (He f Hf) as (H1 & _). congruence.
  - assert (Hap : forall f, In f l -> apart [fst e; snd e] [fst f; snd f]).
    { intros f Hf x Hx Hy. destruct (He f Hf) as (H1 & H2 & H3 & H4). cbn [In] in Hx, Hy. intuition congruence. }
    intros q q' [<-|Hq] [<-|Hq'] Hne; [congruence| | |apply IH2; auto].
    + apply in_map_iff in Hq'. destruct Hq' as (f & <- & Hf). auto.
    + apply in_map_iff in Hq. destruct Hq as (f & <- & Hf). intros x Hx Hy. exact (Hap f Hf x Hy Hx).
Qed.

(** ** The rotations *)
Lemma rotated_ext n P t U U' : meq (2 ^ n) U U' -> meq (2 ^ n) (rotated n P t U) (rotated n P t U').
Proof. intros H. unfold rotated. rewrite H. reflexivity. Qed.

Lemma turned_ext n table r U V : turned n table r U V -> forall U', meq (2 ^ n) U U' -> turned n table r U' V.
Proof.
  induction 1 as [U V H|k t r P U V Hin H IH]; intros U' HU; [constructor; rewrite <- HU; exact H|]. econstructor; [exact Hin|]. apply IH. apply rotated_ext, HU.
Qed.

Lemma turned_ext_r n table r U V : turned n table r U V -> forall V', meq (2 ^ n) V V' -> turned n table r U V'.
Proof. induction 1 as [U V H|k t r P U V Hin H IH]; intros V' HV; [constructor; rewrite H; exact HV|]. econstructor; [exact Hin|]. apply IH, HV. Qed.

Lemma turned_det n table r U V : NoDup (map fst table) -> turned n table r U V -> forall V', turned n table r U V' -> meq (2 ^ n) V V'.
Proof.
  intros Hn. induction 1 as [U V H|k t r P U V Hin H IH]; intros V' H'; inversion H'; subst.
  - rewrite <- H. auto.
  - apply IH. match goal with K : In (k, ?P0) table |- _ => rewrite (NoDup_value _ _ _ _ Hn Hin K) end. assumption.
Qed.

Lemma turned_unitary n table r U V : Forall (key_ok (K := C) n) table -> turned n table r U V -> unitary2 (2 ^ n) U -> unitary2 (2 ^ n) V.
Proof.
  intros Hk. induction 1 as [U V H|k t r P U V Hin H IH]; intros HU; [eapply unitary2_proper; [exact H|exact HU]|].
  apply IH. unfold rotated. apply unitary2_mul; [|exact HU]. apply rotation_unitary. rewrite Forall_forall in Hk. exact (key_ok_hermitian n _ (Hk _ Hin)).
Qed.

Lemma involutions_commute n P Q s t : meq (2 ^ n) (mmul (2 ^ n) P P) mid -> meq (2 ^ n) (mmul (2 ^ n) Q Q) mid ->
  meq (2 ^ n) (mmul (K := C) (2 ^ n) P Q) (mmul (2 ^ n) Q P) ->
  forall U, meq (2 ^ n) (rotated n P s (rotated n Q t U)) (rotated n Q t (rotated n P s U)).
Proof.
  intros HP HQ HC U. unfold rotated. fold (mit s) (mit t). rewrite !mmul_assoc. rewrite (expm_involution _ P s HP), (expm_involution _ Q t HQ).
  assert (E : forall A B : mat C, meq (2 ^ n) A B -> meq (2 ^ n) (mmul (2 ^ n) A U) (mmul (2 ^ n) B U)) by (intros A B H; rewrite H; reflexivity).
  apply E. rewrite !mmul_add_l, !mmul_add_r, !mmul_scale_l, !mmul_scale_r, !mmul_1_l, !mmul_1_r, HC.
  intros r c _ _. unfold madd, mscale, mit. cbn [kadd kmul CStar]. ring.
Qed.

Lemma key_place n d q P : key_ok (K := C) n ((d, q), P) -> exists w, d = word_name w /\ Forall (fun g => 1 <= g <= 3) w /\ qtuple n (List.length w) q /\
  meq (2 ^ n) (a_ent P) (pword (place n q w)).
Proof.
  intros HK. pose proof HK as (u & Eu & Hu & Hq & _). cbn [fst snd] in *. exists (up u). rewrite up_length.
  assert (Hup : Forall (fun g => 1 <= g <= 3) (up u)).
  { apply Forall_forall. intros g Hg. apply in_map_iff in Hg. destruct Hg as (x & <- & Hx). rewrite Forall_forall in Hu. specialize (Hu x Hx). lia. }
  repeat (split; [auto|]). apply (key_word n d q P (up u)); auto.
Qed.

Lemma place_sq n q w : Forall (fun g => 1 <= g <= 3) w -> meq (2 ^ n) (mmul (K := C) (2 ^ n) (pword (place n q w)) (pword (place n q w))) mid.
Proof. intros Hw. pose proof (pword_sq (K := C) (place n q w) (place_word_le n q w Hw)) as H. rewrite place_length in H. exact H. Qed.

Lemma apart_commute n k k' P P' s t U : key_ok (K := C) n (k, P) -> key_ok (K := C) n (k', P') -> apart (snd k) (snd k') ->
  meq (2 ^ n) (rotated n (a_ent P) s (rotated n (a_ent P') t U)) (rotated n (a_ent P') t (rotated n (a_ent P) s U)).
Proof.
  destruct k as [d q], k' as [d' q']. cbn [snd]. intros H1 H2 Ha.
  destruct (key_place n d q P H1) as (w & _ & Hw & Hq & M). destruct (key_place n d' q' P' H2) as (w' & _ & Hw' & Hq' & M').
  apply involutions_commute.
  - rewrite M. apply place_sq, Hw.
  - rewrite M'. apply place_sq, Hw'.
  - rewrite M, M'. apply words_commute; auto using place_length, place_word_le. intros p Hp. rewrite !nth_place by auto.
    destruct (index_of p q) as [i|] eqn:I1; [|auto]. destruct (index_of p q') as [j|] eqn:I2; [|auto]. exfalso.
    apply index_of_Some in I1. apply index_of_Some in I2. apply nth_error_In in I1. apply nth_error_In in I2. exact (Ha p I1 I2).
Qed.

Lemma turned_perm n table r r' : Forall (key_ok (K := C) n) table -> Permutation r r' -> NoDup (map fst r) ->
  (forall k k', In k (map fst r) -> In k' (map fst r) -> k <> k' -> apart (snd k) (snd k')) ->
  forall U V, turned n table r U V -> turned n table r' U V.
Proof.
  intros Hk Hp. rewrite Forall_forall in Hk. induction Hp as [|[k t] r r' Hp IH|[k t] [k' t'] r|r1 r2 r3 H1 IH1 H2 IH2]; intros Hn Ha U V H.
  - exact H.
  - inversion H as [|? ? ? P ? ? Hin H']; subst. econstructor; [exact Hin|]. cbn [map fst] in Hn. inversion Hn; subst.
    apply IH; auto. intros; apply Ha; cbn [map]; try right; auto.
  - inversion H as [|? ? ? P ? ? Hin H']; subst. inversion H' as [|? ? ? P' ? ? Hin' H'']; subst. cbn [map fst] in Hn, Ha. inversion Hn as [|? ? Hx Hn']; subst.
    econstructor; [exact Hin'|]. econstructor; [exact Hin|]. eapply turned_ext; [exact H''|].
    apply (apart_commute n k k' P' P); auto. apply Ha; cbn [In]; auto. intros ->. apply Hx. left. reflexivity.
  - apply IH2; [eapply Permutation_NoDup; [apply Permutation_map; exact H1|exact Hn]| |].
    + intros k k' Hi Hi'. apply Ha; eapply Permutation_in; try (apply Permutation_map, Permutation_sym; exact H1); auto.
    + apply IH1; auto.
Qed.

(** ** The loops over the filtered edges *)
Lemma dget_key {B} (d : list (key * B)) k v : dget key_eqb d k = Ok v -> In (k, v) d.
Proof.
  induction d as [|[k' w] d IH]; cbn [dget]; [discriminate|]. destruct (key_eqb k' k) eqn:E.
  - intros H. injection H as <-. apply key_eqb_spec in E. subst. left. reflexivity.
  - intros H. right. apply IH, H.
Qed.
Lemma dget_key_ok {B} (d : list (key * B)) k v : In (k, v) d -> exists v', dget key_eqb d k = Ok v'.
Proof.
  induction d as [|[k' w] d IH]; [intros []|]. cbn [dget]. destruct (key_eqb k' k) eqn:E; [eauto|]. intros [H|H]; [|auto].
  injection H as -> ->. assert (key_eqb k k = true) by (apply key_eqb_spec; auto). congruence.
Qed.

Section Loops.
Context (n : nat) (table : list (key * arr C)) (d : string) (ps : list R).

Lemma loop_spec : forall es i U V used,
  foldM (fun V ie => do t <- list_get ps (fst ie); do P <- dget key_eqb table (d, snd ie);
      Ok (mmul (2 ^ n) (expm (2 ^ n) (mscale (mit (t / 2)) (a_ent P))) V)) (combine (seq i (List.length es)) es) U = Ok V ->
  mapM (fun ie => do t <- list_get ps (fst ie); Ok ((d, snd ie), t)) (combine (seq i (List.length es)) es) = Ok used ->
  turned n table used U V /\ map fst used = map (pair d) es /\ (forall j, j < List.length es -> nth_error ps (i + j) = nth_error (map snd used) j).
Proof.
  induction es as [|e es IH]; intros i U V used E1 E2.
  - cbn in E1, E2. injection E1 as <-. injection E2 as <-. split; [constructor; reflexivity|]. split; [reflexivity|]. cbn. intros; lia.
  - cbn [List.length seq combine foldM mapM fst snd] in E1, E2. apply bind_ok in E1. destruct E1 as (V1 & E1 & E1').
    apply bind_ok in E1. destruct E1 as (t & Et & E1). apply bind_ok in E1. destruct E1 as (P & EP & E1). injection E1 as <-.
    rewrite Et in E2. cbn [bind] in E2. apply bind_ok in E2. destruct E2 as (us & E2 & E2'). injection E2' as <-.
    destruct (IH (S i) _ _ _ E1' E2) as (H1 & H2 & H3). split; [|split].
    + econstructor; [apply dget_key; exact EP|]. exact H1.
    + cbn [map fst]. rewrite H2. reflexivity.
    + intros [|j] Hj; cbn [map snd nth_error].
      * rewrite Nat.add_0_r. unfold list_get in Et. destruct (nth_error ps i); [injection Et as <-; reflexivity|discriminate].
      * rewrite <- H3 by (cbn in Hj; lia). f_equal. lia.
Qed.

Lemma loop_ok : forall es i U, i + List.length es <= List.length ps -> (forall e, In e es -> exists P, In ((d, e), P) table) ->
  exists V used, foldM (fun V ie => do t <- list_get ps (fst ie); do P <- dget key_eqb table (d, snd ie);
      Ok (mmul (2 ^ n) (expm (2 ^ n) (mscale (mit (t / 2)) (a_ent P))) V)) (combine (seq i (List.length es)) es) U = Ok V /\
  mapM (fun ie => do t <- list_get ps (fst ie); Ok ((d, snd ie), t)) (combine (seq i (List.length es)) es) = Ok used.
Proof.
  induction es as [|e es IH]; intros i U Hl Hk; [exists U, []; split; reflexivity|]. cbn [List.length] in Hl.
  destruct (nth_error ps i) as [t|] eqn:Et; [|apply nth_error_None in Et; lia].
  destruct (Hk e (or_introl eq_refl)) as (P & HP). destruct (dget_key_ok _ _ _ HP) as (P' & EP).
  destruct (IH (S i) (mmul (2 ^ n) (expm (2 ^ n) (mscale (mit (t / 2)) (a_ent P'))) U)) as (V & used & E1 & E2); [lia|intros; apply Hk; right; auto|].
  exists V, (((d, e), t) :: used). cbn [List.length seq combine foldM mapM fst snd]. unfold list_get at 1 3. rewrite Et. cbn [bind]. rewrite EP. cbn [bind].
  rewrite E1, E2. split; reflexivity.
Qed.
End Loops.

Lemma qmat_rot n d q P t : key_ok (K := C) n ((d, q), P) ->
  meq (2 ^ n) (qmat n (gate_qop (ARot t d q))) (expm (2 ^ n) (mscale (mit (t / 2)) (a_ent P))).
Proof.
  intros HK. destruct (key_place n d q P HK) as (w & -> & Hw & Hq & M). rewrite rot_matrix; auto; [|apply Hq|apply (qtuple_wires _ _ _ Hq)|apply Hq].
  rewrite (expm_proper _ _ (mscale (mit (t / 2)) (pword (place n q w)))) by (rewrite M; reflexivity).
  rewrite expm_involution by apply place_sq, Hw. reflexivity.
Qed.

Lemma key_valid n d q P t : key_ok (K := C) n ((d, q), P) -> d <> EmptyString -> valid_qop n (gate_qop (ARot t d q)).
Proof.
  intros HK Hne. destruct (key_place n d q P HK) as (w & -> & Hw & Hq & M). apply rot_valid; auto; [apply Hq|destruct w; [exfalso; apply Hne; reflexivity|discriminate]|apply (qtuple_wires _ _ _ Hq)|apply Hq].
Qed.

Lemma emb_all n (A : mat C) : meq (2 ^ n) (emb n (seq 0 n) A) A.
Proof.
  intros r c Hr Hc. unfold emb. assert (Ea : agree_off n (seq 0 n) (bits n r) (bits n c) = true).
  { apply agree_off_spec. intros p Hp Hn. exfalso. apply Hn. apply in_seq. lia. }
  rewrite Ea. assert (Es : forall i, i < 2 ^ n -> unbits (sel (seq 0 n) (bits n i)) = i).
  { intros i Hi. rewrite <- (unbits_bits n i Hi) at 2. f_equal. unfold sel. apply nth_ext with (d := 0) (d' := 0); [rewrite map_length, seq_length, bits_length; reflexivity|].
    rewrite map_length, seq_length. intros k Hk. rewrite (nth_indep _ 0 (nth 0 (bits n i) 0)) by (rewrite map_length, seq_length; exact Hk).
    rewrite (map_nth (fun w => nth w (bits n i) 0)), seq_nth by auto. reflexivity. }
  rewrite !Es by auto. reflexivity.
Qed.

(** the circuit handed to the optimizer has the unitary that is returned for the
    parameters it finds *)
Lemma circuit_lie_spec n table d es U ps : Forall (key_ok (K := C) n) table -> d <> EmptyString -> 1 <= n -> List.length es <= List.length ps ->
  (forall e, In e es -> exists P, In ((d, e), P) table) ->
  exists gates W, circuit_lie n U d es ps = Ok gates /\ circuit_unitary n gates = Ok W /\ turned n table (combine (map (pair d) es) ps) U (a_ent W).
Proof.
  intros Hk Hd Hn Hl Hes. rewrite Forall_forall in Hk.
  set (f := fun ie : nat * list nat => do t <- list_get ps (fst ie); Ok (gate_qop (ARot t d (snd ie)))).
  assert (G : forall es i, (forall e, In e es -> exists P, In ((d, e), P) table) -> i + List.length es <= List.length ps -> forall U,
    exists gs W, mapM f (combine (seq i (List.length es)) es) = Ok gs /\ Forall (valid_qop n) gs /\
      turned n table (combine (map (pair d) es) (skipn i ps)) U W /\ meq (2 ^ n) W (mmul (2 ^ n) (mprod (2 ^ n) (map (qmat n) (rev gs))) U)).
  { clear es Hl Hes U. induction es as [|e es IH]; intros i Hes Hl U.
    - exists [], U. cbn. repeat split; try constructor; try reflexivity. rewrite mmul_1_l. reflexivity.
    - cbn [List.length] in Hl. destruct (nth_error ps i) as [t|] eqn:Et; [|apply nth_error_None in Et; lia].
      destruct (Hes e (or_introl eq_refl)) as (P & HP). destruct (IH (S i) ltac:(intros; apply Hes; right; auto) ltac:(lia) (rotated n (a_ent P) (t / 2) U)) as (gs & W & E & Hv & Ht & Hm).
      exists (gate_qop (ARot t d e) :: gs), W. cbn [List.length seq combine mapM]. unfold f at 1. cbn [fst snd]. unfold list_get. rewrite Et. cbn [bind]. rewrite E.
      split; [reflexivity|]. split; [constructor; [apply (key_valid n d e P t (Hk _ HP) Hd)|exact Hv]|].
      assert (Es : skipn i ps = t :: skipn (S i) ps).
      { clear - Et. revert ps Et. induction i as [|i IH]; intros [|x ps] Et; try discriminate; cbn in *; [congruence|apply IH, Et]. }
      rewrite Es. cbn [map combine]. split; [econstructor; [exact HP|exact Ht]|].
      rewrite Hm. cbn [rev]. rewrite map_app, mprod_app. cbn [map mprod]. rewrite mmul_1_r. rewrite (qmat_rot n d e P t (Hk _ HP)).
      unfold rotated. fold (mit (t / 2)). rewrite !mmul_assoc. reflexivity. }
  destruct (G es 0 Hes Hl U) as (gs & W & E & Hv & Ht & Hm). unfold circuit_lie. fold f. rewrite E. cbn [bind].
  eexists. destruct (circuit_unitary_spec n (mkqop (mkarr (2 ^ n) (2 ^ n) U) (seq 0 n) :: gs)) as (A & EA & _ & _ & MA).
  - constructor; [|exact Hv]. split; [cbn [q_wires]; destruct n; [lia|discriminate]|]. cbn [q_wires q_matrix a_rows a_cols]. rewrite seq_length.
    split; [apply seq_NoDup|]. split; [apply Forall_forall; intros x Hx; apply in_seq in Hx; lia|auto].
  - exists A. split; [reflexivity|]. split; [exact EA|]. eapply turned_ext_r; [exact Ht|]. rewrite Hm, MA. cbn [rev]. rewrite map_app, mprod_app. cbn [map mprod].
    rewrite mmul_1_r. assert (EU : meq (2 ^ n) (qmat n (mkqop (mkarr (2 ^ n) (2 ^ n) U) (seq 0 n))) U).
    { unfold qmat. cbn [q_wires q_matrix a_ent]. apply emb_all. }
    rewrite EU. reflexivity.
Qed.
