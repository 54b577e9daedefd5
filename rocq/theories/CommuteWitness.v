(** Runs of SquaredLieAlgebraLayer with commute=True on four qubits, from the
    identity circuit, with observables Y_a X_b: the gradients and the ties. *)
From Coq Require Import ZArith Arith Lia Bool String Sorted Reals Lra Ring Setoid Morphisms.
From Coquelicot Require Import Coquelicot.
From Verif Require Import Py StarRing Matrix Cplx PauliSpec Bits PauliBasis Expm UtilsModel UtilsProofs CircuitModel CircuitProofs CircuitProofs2
  AlgebraModel AlgebraProofs LayerModel LayerProofs LayerProofs2 CommProofs GreedyModel RotoProofs RotoProofs2 GreedyProofs RotoWitness AdaptModel AdaptProofs
  EdgeModel EdgeSpec EdgeProofs EdgeProofs2 EdgeProofs3 OptimizerModel CommuteModel CommuteProofs.
From Coq Require Import List.
Import ListNotations.
Local Open Scope nat_scope.

Add Ring CrCw : C_ring_theory.

(** the observable Y_a X_b *)
Definition yx (ab : nat * nat) : qop C := mkqop (mkarr 4 4 (pword [2; 1])) [fst ab; snd ab].
Definition yxw (ab : nat * nat) : list nat := place 4 [fst ab; snd ab] [2; 1].
Definition idx (ab : nat * nat) : nat := 2 ^ (3 - fst ab) + 2 ^ (3 - snd ab).
Definition pairs4 : list (nat * nat) := [(0, 1); (0, 2); (0, 3); (1, 2); (2, 3)].

Ltac each_pair H := repeat (destruct H as [<-|H]); try contradiction H.

Lemma yx_valid ab : In ab pairs4 -> valid_qop 4 (yx ab).
Proof. intros H. each_pair H; repeat split; simpl; try discriminate; auto; repeat constructor; simpl; try lia; intuition lia. Qed.

(** the entries of Pauli words as pairs of integers *)
Definition zmul (a b : Z * Z) : Z * Z := ((fst a * fst b - snd a * snd b)%Z, (fst a * snd b + snd a * fst b)%Z).
Definition cz (a : Z * Z) : C := (IZR (fst a), IZR (snd a)).
Definition sg (g b c : nat) : Z * Z :=
  match g with
  | 0 => if Nat.eqb b c then (1, 0)%Z else (0, 0)%Z
  | 1 => match b, c with 0, 1 | 1, 0 => (1, 0)%Z | _, _ => (0, 0)%Z end
  | 2 => match b, c with 0, 1 => (0, -1)%Z | 1, 0 => (0, 1)%Z | _, _ => (0, 0)%Z end
  | _ => match b, c with 0, 0 => (1, 0)%Z | 1, 1 => (-1, 0)%Z | _, _ => (0, 0)%Z end
  end.
Definition wz (n : nat) (w : list nat) (i j : nat) : Z * Z :=
  fold_right (fun p acc => zmul (sg (nth p w 0) (nth p (bits n i) 0) (nth p (bits n j) 0)) acc) (1, 0)%Z (seq 0 n).

Lemma cz_mul a b : cz (zmul a b) = Cmult (cz a) (cz b).
Proof. destruct a, b. unfold cz, zmul. cbn [fst snd]. rewrite minus_IZR, plus_IZR, !mult_IZR. reflexivity. Qed.

Lemma sg_spec g b c : sigma (K := C) g b c = cz (sg g b c).
Proof.
  destruct g as [|[|[|g]]]; cbn [sigma sg].
  - unfold mid. destruct (Nat.eqb b c); reflexivity.
  - destruct b as [|[|b]], c as [|[|c]]; reflexivity.
  - destruct b as [|[|b]], c as [|[|c]]; try reflexivity. apply C_ext; simpl; ring.
  - destruct b as [|[|b]], c as [|[|c]]; try reflexivity. apply C_ext; simpl; ring.
Qed.

Lemma pword_wz n w i j : List.length w = n -> i < 2 ^ n -> j < 2 ^ n -> pword (K := C) w i j = cz (wz n w i j).
Proof.
  intros Hl Hi Hj. rewrite (pword_entry n) by auto. unfold wz, kprod. generalize (seq 0 n) as l.
  induction l as [|p l IH]; [reflexivity|]. cbn [fold_right]. rewrite cz_mul, <- IH, sg_spec. reflexivity.
Qed.

Lemma yxw_length ab : List.length (yxw ab) = 4.
Proof. apply place_length. Qed.

Definition zz_eqb (a b : Z * Z) : bool := Z.eqb (fst a) (fst b) && Z.eqb (snd a) (snd b).
Lemma zz_eqb_spec a b : zz_eqb a b = true -> a = b.
Proof. destruct a, b. unfold zz_eqb. cbn [fst snd]. rewrite andb_true_iff, !Z.eqb_eq. intros [-> ->]. reflexivity. Qed.

Lemma yx_table : forallb (fun ab => forallb (fun i =>
    zz_eqb (wz 4 (yxw ab) i 0) (if Nat.eqb i (idx ab) then (0, 1)%Z else (0, 0)%Z) &&
    zz_eqb (wz 4 (yxw ab) 0 i) (if Nat.eqb i (idx ab) then (0, -1)%Z else (0, 0)%Z)) (seq 0 16)) pairs4 = true.
Proof. vm_compute. reflexivity. Qed.

Lemma yx_entries ab i : In ab pairs4 -> i < 16 ->
  pword (K := C) (yxw ab) i 0 = (if Nat.eqb i (idx ab) then Ci else RtoC 0) /\ pword (K := C) (yxw ab) 0 i = (if Nat.eqb i (idx ab) then Copp Ci else RtoC 0).
Proof.
  intros H Hi. pose proof yx_table as T. rewrite forallb_forall in T. specialize (T ab H). rewrite forallb_forall in T. specialize (T i).
  rewrite in_seq in T. specialize (T ltac:(lia)). apply andb_true_iff in T. destruct T as [T1 T2]. apply zz_eqb_spec in T1. apply zz_eqb_spec in T2.
  rewrite !(pword_wz 4) by (try apply yxw_length; simpl; lia). rewrite T1, T2. destruct (Nat.eqb i (idx ab)); split; apply C_ext; simpl; ring.
Qed.
Lemma yx_col ab i : In ab pairs4 -> i < 16 -> pword (K := C) (yxw ab) i 0 = if Nat.eqb i (idx ab) then Ci else RtoC 0.
Proof. intros H Hi. apply (yx_entries ab i H Hi). Qed.
Lemma yx_row ab i : In ab pairs4 -> i < 16 -> pword (K := C) (yxw ab) 0 i = if Nat.eqb i (idx ab) then Copp Ci else RtoC 0.
Proof. intros H Hi. apply (yx_entries ab i H Hi). Qed.

Lemma omega16 P O : omega 16 (qnode_state mid) P O =
  Cminus (lsum (SR := CStar) (fun j => Cmult (P 0 j) (O j 0)) (seq 0 16)) (lsum (SR := CStar) (fun j => Cmult (O 0 j) (P j 0)) (seq 0 16)).
Proof.
  assert (Hs : veq 16 (qnode_state (mid (K := C))) (basis 0)) by (intros i _; reflexivity).
  unfold omega. rewrite quad_ip. rewrite (ip_ext 16 _ (basis 0) _ (fun i => msub (mmul 16 P O) (mmul 16 O P) i 0) Hs).
  - rewrite ip_basis by lia. reflexivity.
  - intros i Hi. rewrite (mv_ext 16 _ _ _ (basis 0) (fun _ _ _ _ => eq_refl) Hs i Hi). apply mv_basis. lia.
Qed.

Lemma idx_lt ab : In ab pairs4 -> idx ab < 16.
Proof. intros H. each_pair H; cbn; lia. Qed.

Lemma omega_yx P ab : In ab pairs4 -> Im (omega 16 (qnode_state mid) P (pword (yxw ab))) = (Re (P 0%nat (idx ab)) + Re (P (idx ab) 0%nat))%R.
Proof.
  intros H. pose proof (idx_lt ab H) as Hm. rewrite omega16. set (m := idx ab) in *.
  rewrite (lsum_at _ 16 m), (lsum_at _ 16 m) by first [exact Hm | intros i Hi Hn; rewrite ?yx_col, ?yx_row by auto; fold m; destruct (Nat.eqb_spec i m); [congruence|ring]].
  rewrite yx_col, yx_row by auto. fold m. rewrite Nat.eqb_refl. destruct (P 0 m) as [a b], (P m 0) as [c e]. simpl. ring.
Qed.

(** the gradient of a word *)
Definition wgrad (bs : list (nat * nat)) (w : list nat) : Z :=
  fold_left (fun s ab => (s + (fst (wz 4 w 0 (idx ab)) + fst (wz 4 w (idx ab) 0)))%Z) bs 0%Z.

Lemma gradient_yx bs Os P w : incl bs pairs4 -> Forall2 (fun O ab => meq 16 (a_ent O) (pword (yxw ab))) Os bs ->
  List.length w = 4 -> meq 16 P (pword w) -> gradient 4 (qnode_state mid) Os P = IZR (wgrad bs w).
Proof.
  intros Hi HO Hl HP. unfold gradient, wgrad. change (2 ^ 4) with 16. change 0%R with (IZR 0). generalize 0%Z as z. revert Hi.
  induction HO as [|O ab Os bs Ho HO IH]; intros Hi z; [reflexivity|]. cbn [fold_left].
  assert (Hab : In ab pairs4) by (apply Hi; left; reflexivity). pose proof (idx_lt ab Hab) as Hm.
  rewrite <- IH by (intros x Hx; apply Hi; right; exact Hx). f_equal.
  rewrite (omega_ext 16 _ _ _ _ _ HP Ho), (omega_yx _ ab Hab). rewrite !(pword_wz 4) by (auto; simpl; lia). cbn [cz Re fst]. rewrite <- !plus_IZR. reflexivity.
Qed.

Lemma yx_full bs : incl bs pairs4 -> exists Os, mapM (full 4) (map yx bs) = Ok Os /\ Forall2 (fun O ab => meq 16 (a_ent O) (pword (yxw ab))) Os bs.
Proof.
  intros Hi. destruct (mapM_full 4 (map yx bs)) as (Os & E & H).
  { apply Forall_forall. intros o Ho. apply in_map_iff in Ho. destruct Ho as (ab & <- & Hab). apply yx_valid, Hi, Hab. }
  exists Os. split; [exact E|]. clear E. revert Os H. induction bs as [|ab bs IH]; intros Os H; cbn [map] in H; inversion H as [|O o l l' H1 H2]; subst; [constructor|].
  constructor; [|apply IH; [intros x Hx; apply Hi; right; exact Hx|exact H2]]. 
  assert (Hab : In ab pairs4) by (apply Hi; left; reflexivity). change 16 with (2 ^ 4). rewrite H1. unfold qmat, yx. cbn [q_wires q_matrix a_ent]. apply emb_pword; [|reflexivity].
  clear - Hab. each_pair Hab; split; simpl; repeat constructor; simpl; try lia; intuition lia.
Qed.

(** ** The gradients of the table *)
Definition key_place4 (k : key) : list nat := place 4 (snd k) (word_of (fst k)).

Lemma table_gradients bs Os (table : list (key * arr C)) : incl bs pairs4 -> Forall2 (fun O ab => meq 16 (a_ent O) (pword (yxw ab))) Os bs ->
  Forall (key_ok (K := C) 4) table ->
  abs_gradients 4 (qnode_state mid) Os table = map (fun k => (k, IZR (Z.abs (wgrad bs (key_place4 k))))) (map fst table).
Proof.
  intros Hi HO Hk. unfold abs_gradients. rewrite map_map. apply map_ext_in. intros [[d q] P] Hin. cbn [fst snd]. f_equal.
  rewrite Forall_forall in Hk. destruct (key_place 4 d q P (Hk _ Hin)) as (w & -> & Hw & Hq & M).
  rewrite (gradient_yx bs Os (a_ent P) (place 4 q w) Hi HO (place_length _ _ _) M). rewrite <- abs_IZR. unfold key_place4. cbn [fst snd].
  rewrite (word_of_name w Hw). reflexivity.
Qed.

(** the ties of integer values: those with the largest one *)
Lemma tied_integers (f : key -> Z) ks b : In b ks -> (forall k, In k ks -> (f k <= f b)%Z) -> (0 <= f b <= 1000)%Z ->
  tied_edges (map (fun k => (k, IZR (f k))) ks) =
  match filter (fun k => Z.eqb (f k) (f b)) ks with
  | [] => Err IndexError
  | (d, q) :: r => Ok (d, map snd (filter (fun k => String.eqb (fst k) d) ((d, q) :: r)))
  end.
Proof.
  intros Hb Hm H0. unfold tied_edges. set (om := map (fun k => (k, IZR (f k))) ks).
  assert (Em : max_value om = Ok (IZR (f b))).
  { destruct (max_value om) as [m|e] eqn:E.
    - destruct (max_value_spec _ _ E) as [(x & Hx & <-) Hx2]. f_equal. apply in_map_iff in Hx. destruct Hx as (k & <- & Hk). cbn [snd] in *.
      pose proof (IZR_le _ _ (Hm k Hk)). specialize (Hx2 (b, IZR (f b))). cbn [snd] in Hx2. 
      assert (In (b, IZR (f b)) om) by (unfold om; apply in_map_iff; exists b; auto). specialize (Hx2 H1). lra.
    - exfalso. unfold om in E. destruct ks; [contradiction|discriminate]. }
  rewrite Em. cbn [bind]. cbv zeta.
  assert (Ef : filter (fun kv : key * R => isclose (Fin (/ 1000)) (snd kv) (IZR (f b))) om = map (fun k => (k, IZR (f k))) (filter (fun k => Z.eqb (f k) (f b)) ks)).
  { unfold om. rewrite (filter_map_comm (fun k => (k, IZR (f k)))). f_equal. apply filter_ext_in. intros k Hk. cbn [snd isclose]. specialize (Hm k Hk).
    apply IZR_le in Hm as Hr. assert (H0r : (0 <= IZR (f b) <= 1000)%R) by (split; apply IZR_le; lia).
    rewrite (Rabs_right (IZR (f b))) by lra. destruct (Z.eqb_spec (f k) (f b)) as [E|E].
    - rewrite E. apply Rleb_true. replace (IZR (f b) - IZR (f b))%R with 0%R by ring. rewrite Rabs_R0. lra.
    - apply not_true_is_false. rewrite Rleb_true. assert (Hlt : (f k + 1 <= f b)%Z) by lia. apply IZR_le in Hlt. rewrite plus_IZR in Hlt.
      rewrite Rabs_left by lra. lra. }
  rewrite Ef. destruct (filter (fun k => Z.eqb (f k) (f b)) ks) as [|[d q] r]; [reflexivity|]. cbn [map]. unfold list_get. cbn [nth_error bind fst].
  f_equal. f_equal. change (((d, q), IZR (f (d, q))) :: map (fun k => (k, IZR (f k))) r) with (map (fun k => (k, IZR (f k))) ((d, q) :: r)).
  generalize ((d, q) :: r) as l. induction l as [|k l IH]; [reflexivity|]. cbn [map filter fst]. destruct (String.eqb (fst k) d); cbn [map fst]; congruence.
Qed.

(** the run of the layer with observables Y_a X_b from the identity circuit *)
Lemma ties_yx bs b : incl bs pairs4 -> In b (all_keys 4 [1; 2]) ->
  forallb (fun k => Z.leb (Z.abs (wgrad bs (key_place4 k))) (Z.abs (wgrad bs (key_place4 b)))) (all_keys 4 [1; 2]) = true ->
  Z.leb (Z.abs (wgrad bs (key_place4 b))) 1000 = true ->
  forall eta, (0 <= eta <= 1)%R -> exists table Os, SquaredLieAlgebraLayer 4 (map yx bs) eta = Ok (mkgreedy 4 table Os None) /\
    map fst table = all_keys 4 [1; 2] /\ Forall (key_ok (K := C) 4) table /\
    tied_edges (abs_gradients 4 (qnode_state mid) Os (filter (fun kv => negb (is_prev None (fst kv))) table)) = (
      match filter (fun k => Z.eqb (Z.abs (wgrad bs (key_place4 k))) (Z.abs (wgrad bs (key_place4 b)))) (all_keys 4 [1; 2]) with
      | [] => Err IndexError
      | (d, q) :: r => Ok (d, map snd (filter (fun k => String.eqb (fst k) d) ((d, q) :: r)))
      end).
Proof.
  intros Hi Hb Hm H0 eta He. destruct (yx_full bs Hi) as (Os & EO & HO). destruct (squared_init 4 (map yx bs) Os eta EO He) as (table & El & Ek & Hk).
  exists table, Os. split; [exact El|]. split; [exact Ek|]. split; [exact Hk|].
  assert (Ef : filter (fun kv : key * arr C => negb (is_prev None (fst kv))) table = table).
  { clear. induction table as [|x t IH]; [reflexivity|]. cbn [filter is_prev negb] in *. congruence. }
  rewrite Ef, (table_gradients bs Os table Hi HO Hk), Ek. apply (tied_integers (fun k => Z.abs (wgrad bs (key_place4 k)))); [exact Hb| |].
  - intros k Hkk. rewrite forallb_forall in Hm. apply Z.leb_le, Hm, Hkk.
  - split; [apply Z.abs_nonneg|apply Z.leb_le, H0].
Qed.
