(** The polynomial of ZassenhausLayerV2. *)
From Coq Require Import ZArith QArith Qcanon Qreals Arith Lia Bool String Permutation List.
From Verif Require Import Py GaussQ UtilsModel LayerModel CircuitModel PauliModel ZasV2Model.
From Coq Require Import List.
Import ListNotations.
Local Open Scope nat_scope.

(** ** The polynomial *)
Definition t_x0 : smono := match s_term "X" "I" true (1, 0, 0) with Ok t => t | Err _ => mksmono (Build_mono [] [] g0) (0, 0, 0) end.
Definition t_x1 : smono := match s_term "I" "X" false (0, 1, 0) with Ok t => t | Err _ => mksmono (Build_mono [] [] g0) (0, 0, 0) end.
Definition t_zz : smono := match s_term "Z" "Z" true (0, 0, 1) with Ok t => t | Err _ => mksmono (Build_mono [] [] g0) (0, 0, 0) end.
Definition idl (l : list nat) := l.
Definition t_yz : smono := match s_comm idl t_x0 t_zz with Ok t => t | Err _ => mksmono (Build_mono [] [] g0) (0, 0, 0) end.
Definition t_zy : smono := match s_comm idl t_x1 t_zz with Ok t => t | Err _ => mksmono (Build_mono [] [] g0) (0, 0, 0) end.
Definition t_00 : smono := match s_comm idl t_x0 t_x1 with Ok t => t | Err _ => mksmono (Build_mono [] [] g0) (0, 0, 0) end.

Lemma v2_circuit_eq : v2_circuit = Ok [t_x0; t_x1; t_zz].
Proof. vm_compute. reflexivity. Qed.

Definition orders {A} (ord : list A -> list A) : Prop := forall l, Permutation (ord l) l.

Lemma ord_cases {A} (ord : list A -> list A) (a b : A) : orders ord -> ord [a; b] = [a; b] \/ ord [a; b] = [b; a].
Proof. intros H. apply Permutation_length_2_inv, Permutation_sym, H. Qed.
Lemma ord_nil {A} (ord : list A -> list A) : orders ord -> ord [] = [].
Proof. intros H. apply Permutation_nil, Permutation_sym, H. Qed.
Lemma ord_one {A} (ord : list A -> list A) a : orders ord -> ord [a] = [a].
Proof. intros H. apply Permutation_length_1_inv, Permutation_sym, H. Qed.

Lemma mul_pair ord a b : orders ord -> m_locs a = [0; 1] -> m_locs b = [0; 1] ->
  mono_mul ord a b = do l <- mapM (fun i => do p <- mono_at a i; do q <- mono_at b i; Pauli_mul p q) (ord [0; 1]); mono_init (l ++ []).
Proof.
  intros H Ha Hb. unfold mono_mul. rewrite Ha, Hb. cbv zeta.
  change (filter (fun i => mem i (nodup Nat.eq_dec [0; 1])) (nodup Nat.eq_dec [0; 1])) with [0; 1].
  change (filter (fun i => negb (mem i [0; 1])) (nodup Nat.eq_dec [0; 1])) with (@nil nat).
  rewrite (ord_nil ord H). reflexivity.
Qed.

Ltac comm_case H :=
  unfold s_comm, mono_commutator; rewrite !(mul_pair _ _ _ H) by reflexivity;
  destruct (ord_cases _ 0 1 H) as [E|E]; rewrite E; vm_compute; reflexivity.

Lemma comm_00 ord : orders ord -> s_comm ord t_x0 t_x1 = Ok t_00.
Proof. intros H. comm_case H. Qed.
Lemma comm_yz ord : orders ord -> s_comm ord t_x0 t_zz = Ok t_yz.
Proof. intros H. comm_case H. Qed.
Lemma comm_zy ord : orders ord -> s_comm ord t_x1 t_zz = Ok t_zy.
Proof. intros H. comm_case H. Qed.

(** the Paulis of a monomial *)
Definition names (t : smono) : list (nat * nat) := map (fun p => (p_alpha p, p_gamma p)) (m_paulis (sm_mono t)).

Lemma zip_names l : forall m, List.length l = List.length m -> zip_eq l m = true <-> map (fun p => (p_alpha p, p_gamma p)) l = map (fun p => (p_alpha p, p_gamma p)) m.
Proof.
  induction l as [|p l IH]; intros [|q m] L; try discriminate; [simpl; tauto|]. cbn [zip_eq map]. injection L as L.
  rewrite andb_true_iff, (IH m L). unfold Pauli_eq. rewrite andb_true_iff, !Nat.eqb_eq. split; [intros [[-> ->] ->]; reflexivity|].
  intros E. injection E as E1 E2 E3. auto.
Qed.

Definition two (t : smono) : Prop := List.length (m_paulis (sm_mono t)) = 2.

Lemma s_add_new t s : two t -> Forall two s -> ~ In (names t) (map names s) -> s_add t s = s ++ [t].
Proof.
  intros Ht Hs Hn. unfold s_add. destruct (existsb _ s) eqn:E; [|reflexivity]. exfalso. apply Hn.
  apply existsb_exists in E. destruct E as (u & Hu & E). rewrite Forall_forall in Hs. apply zip_names in E; [|rewrite Ht, (Hs u Hu); reflexivity].
  apply in_map_iff. exists u. split; [symmetry; exact E|exact Hu].
Qed.

Lemma s_add_all l : forall s, Forall two l -> Forall two s -> NoDup (map names (s ++ l)) -> fold_left (fun s t => s_add t s) l s = s ++ l.
Proof.
  induction l as [|t l IH]; intros s Hl Hs Hn; cbn [fold_left]; [symmetry; apply app_nil_r|]. inversion Hl; subst.
  assert (Hn' : NoDup (map names ((s ++ [t]) ++ l))) by (rewrite <- app_assoc; exact Hn).
  rewrite s_add_new; auto.
  - rewrite IH; auto; [rewrite <- app_assoc; reflexivity|apply Forall_app; auto].
  - rewrite map_app in Hn. cbn [map] in Hn. intros Hi. apply NoDup_remove_2 in Hn. apply Hn. apply in_app_iff. auto.
Qed.

Definition five : list smono := [t_zz; t_x0; t_yz; t_x1; t_zy].

Lemma five_two : Forall two five.
Proof. repeat constructor. Qed.
Lemma five_NoDup : NoDup (map names five).
Proof. vm_compute. repeat constructor; simpl; intuition discriminate. Qed.

Lemma bch_result ord ordS : orders ord -> orders ordS -> exists last b,
  foldM (bch_step ord ordS [t_x0; t_x1; t_zz]) (seq 0 2) (repeat [] 3) = Ok b /\ list_get b 2 = Ok last /\ Permutation last five.
Proof.
  intros H HS. cbn [seq repeat foldM].
  assert (B0 : bch_step ord ordS [t_x0; t_x1; t_zz] [[]; []; []] 0 = Ok [[t_x0]; [t_x1; t_x0]; []]).
  { unfold bch_step. cbn [list_get nth_error bind Nat.add]. change (s_add t_x0 []) with [t_x0]. change (s_add t_x1 []) with [t_x1]. cbv zeta.
    rewrite !(ord_one ordS) by exact HS. cbn [foldM bind]. change (s_add t_x0 []) with [t_x0]. rewrite (comm_00 ord H). cbn [bind].
    replace (geqb (m_coeff (sm_mono t_00)) g0) with true by (vm_compute; reflexivity). rewrite (ord_one ordS) by exact HS.
    cbn [list_set bind fold_left]. replace (s_add t_x0 [t_x1]) with [t_x1; t_x0] by (vm_compute; reflexivity). reflexivity. }
  rewrite B0. cbn [bind].
  assert (Z1 : geqb (m_coeff (sm_mono t_yz)) g0 = false) by (vm_compute; reflexivity).
  assert (Z2 : geqb (m_coeff (sm_mono t_zy)) g0 = false) by (vm_compute; reflexivity).
  assert (B1 : exists p, Permutation p [t_x0; t_yz; t_x1; t_zy] /\
                 bch_step ord ordS [t_x0; t_x1; t_zz] [[t_x0]; [t_x1; t_x0]; []] 1 = Ok [[t_x0]; [t_x1; t_x0]; t_zz :: p]).
  { unfold bch_step. cbn [list_get nth_error bind Nat.add]. replace (s_add t_x1 [t_x1; t_x0]) with [t_x1; t_x0] by (vm_compute; reflexivity).
    change (s_add t_zz []) with [t_zz]. cbv zeta. rewrite (ord_one ordS) by exact HS.
    assert (G : forall new, Permutation new [t_x0; t_yz; t_x1; t_zy] -> fold_left (fun s t => s_add t s) (ordS new) [t_zz] = t_zz :: ordS new).
    { intros new Hp. assert (P : Permutation (t_zz :: ordS new) five) by (apply perm_skip; rewrite (HS new); exact Hp).
      apply (s_add_all (ordS new) [t_zz]).
      - pose proof five_two as F. rewrite <- P in F. inversion F; assumption.
      - repeat constructor.
      - apply (Permutation_NoDup (l := map names five)); [|apply five_NoDup]. apply Permutation_map, Permutation_sym, P. }
    destruct (ord_cases ordS t_x1 t_x0 HS) as [E|E]; rewrite E; cbn [foldM bind].
    - change (s_add t_x1 []) with [t_x1]. rewrite (comm_zy ord H). cbn [bind]. rewrite Z2.
      replace (s_add t_zy [t_x1]) with [t_x1; t_zy] by (vm_compute; reflexivity).
      replace (s_add t_x0 [t_x1; t_zy]) with [t_x1; t_zy; t_x0] by (vm_compute; reflexivity). rewrite (comm_yz ord H). cbn [bind]. rewrite Z1.
      replace (s_add t_yz [t_x1; t_zy; t_x0]) with [t_x1; t_zy; t_x0; t_yz] by (vm_compute; reflexivity).
      assert (P : Permutation [t_x1; t_zy; t_x0; t_yz] [t_x0; t_yz; t_x1; t_zy]) by (apply (Permutation_app_comm [t_x1; t_zy] [t_x0; t_yz])).
      exists (ordS [t_x1; t_zy; t_x0; t_yz]). split; [rewrite (HS _); exact P|]. cbn [list_set bind]. rewrite G by exact P. reflexivity.
    - change (s_add t_x0 []) with [t_x0]. rewrite (comm_yz ord H). cbn [bind]. rewrite Z1.
      replace (s_add t_yz [t_x0]) with [t_x0; t_yz] by (vm_compute; reflexivity).
      replace (s_add t_x1 [t_x0; t_yz]) with [t_x0; t_yz; t_x1] by (vm_compute; reflexivity). rewrite (comm_zy ord H). cbn [bind]. rewrite Z2.
      replace (s_add t_zy [t_x0; t_yz; t_x1]) with [t_x0; t_yz; t_x1; t_zy] by (vm_compute; reflexivity).
      exists (ordS [t_x0; t_yz; t_x1; t_zy]). split; [apply HS|]. cbn [list_set bind]. rewrite G by reflexivity. reflexivity. }
  destruct B1 as (p & Hp & B1). rewrite B1. cbn [bind].
  exists (t_zz :: p), [[t_x0]; [t_x1; t_x0]; t_zz :: p]. split; [reflexivity|]. split; [reflexivity|]. apply perm_skip. exact Hp.
Qed.

(** names, numbers and exponents *)
Definition term_of (t : smono) : res (string * list nat * (gq * (nat * nat * nat))) :=
  do k <- mono_to_oranssi (sm_mono t); Ok (k, (m_coeff (sm_mono t), sm_exps t)).
Definition term_val (t : smono) : string * list nat * (gq * (nat * nat * nat)) :=
  match term_of t with Ok r => r | Err _ => (EmptyString, [], (g0, (0, 0, 0))) end.

Lemma five_terms : Forall (fun t => term_of t = Ok (term_val t)) five.
Proof. repeat constructor. Qed.

Definition reading (t : string * list nat * (gq * (nat * nat * nat))) : string * list nat * (Q * Q) * (nat * nat * nat) :=
  (fst t, (this (gre (fst (snd t))), this (gim (fst (snd t)))), snd (snd t)).

Definition ks2 : list (string * list nat) := [("X"%string, [0]); ("X"%string, [1])].
Definition ks4' : list (string * list nat) := [("ZZ"%string, [0; 1]); ("YZ"%string, [0; 1]); ("ZY"%string, [0; 1])].

Lemma five_keys : Forall (fun t => (String.length (fst (fst (term_val t))) = 1 /\ In (fst (term_val t)) ks2) \/
                                   (String.length (fst (fst (term_val t))) = 2 /\ In (fst (term_val t)) ks4')) five.
Proof. repeat (apply Forall_cons; [vm_compute; tauto|]). apply Forall_nil. Qed.

Lemma read_x0 : reading (term_val t_x0) = ("X"%string, [0], (0%Q, (-1 # 1)%Q), (1, 0, 0)).
Proof. vm_compute. reflexivity. Qed.
Lemma read_x1 : reading (term_val t_x1) = ("X"%string, [1], (0%Q, (-1 # 1)%Q), (0, 1, 0)).
Proof. vm_compute. reflexivity. Qed.
Lemma read_zz : reading (term_val t_zz) = ("ZZ"%string, [0; 1], (0%Q, (-1 # 1)%Q), (0, 0, 1)).
Proof. vm_compute. reflexivity. Qed.
Lemma read_yz : reading (term_val t_yz) = ("YZ"%string, [0; 1], (0%Q, 1%Q), (1, 0, 1)).
Proof. vm_compute. reflexivity. Qed.
Lemma read_zy : reading (term_val t_zy) = ("ZY"%string, [0; 1], (0%Q, 1%Q), (0, 1, 1)).
Proof. vm_compute. reflexivity. Qed.
Global Opaque t_x0 t_x1 t_zz t_yz t_zy term_val.
