(** Construction of the Local and Custom layers. *)
From Coq Require Import Arith Lia Bool String Reals Lra Ring Setoid Morphisms.
From Coquelicot Require Import Coquelicot.
From Verif Require Import Py StarRing Matrix Cplx PauliSpec Bits PauliBasis Expm UtilsModel UtilsProofs CircuitModel CircuitProofs CircuitProofs2
  AlgebraModel AlgebraProofs LayerModel LayerProofs.
From Coq Require Import List.
Import ListNotations.
Local Open Scope nat_scope.

Lemma str_in_spec d l : str_in d l = true <-> In d l.
Proof.
  unfold str_in. rewrite existsb_exists. split.
  - intros (x & Hx & E). apply String.eqb_eq in E. congruence.
  - intros H. exists d. split; auto. apply String.eqb_refl.
Qed.

Definition chosen (k : nat) (ds : option (list string)) : list (list nat) :=
  match ds with None => words 3 k | Some l => filter (fun w => str_in (wname w) l) (words 3 k) end.

Lemma chosen_incl k ds w : In w (chosen k ds) -> In w (words 3 k).
Proof. unfold chosen. destruct ds; auto. intros H. apply filter_In in H. tauto. Qed.

Lemma wwords_1 k : wwords [k] = words 3 k.
Proof. unfold wwords. cbn [flat_map]. apply app_nil_r. Qed.
Lemma wnames_1 k : wnames [k] = map wname (words 3 k).
Proof. unfold wnames. rewrite wwords_1. reflexivity. Qed.

Lemma filter_map_comm {A B} (f : A -> B) p l : filter p (map f l) = map f (filter (fun a => p (f a)) l).
Proof. induction l as [|a l IH]; simpl; auto. destruct (p (f a)); simpl; rewrite IH; auto. Qed.

Lemma keep_eq k l : keep_directions (map op_of (words 3 k)) (map wname (words 3 k)) l =
  map (fun w => (op_of w, wname w)) (chosen k (Some l)).
Proof. unfold keep_directions, chosen. rewrite combine_map_same, filter_map_comm. reflexivity. Qed.

Definition group_ok (n : nat) (W : list (list nat)) (q : list nat) (g : list (arr C)) : Prop :=
  Forall2 (fun w F => key_ok n ((wname w, q), F)) W g.

Lemma group_exists n k q W : 0 < k -> (forall w, In w W -> In w (words 3 k)) -> qtuple n k q ->
  exists g, mapM (fun p => get_full_operator p q n) (map (op_of (K := C)) W) = Ok g /\ group_ok n W q g.
Proof.
  intros Hk HW Hq. induction W as [|w W IH]; [exists []; split; [reflexivity|constructor]|].
  destruct IH as (g & E & Hg); [intros; apply HW; right; auto|].
  assert (Hw : In w (words 3 k)) by (apply HW; left; auto). pose proof (proj1 (words_spec _ _ _) Hw) as [Hl _].
  destruct (key_full (K := C) n [k] w q) as (F & EF & HF); [lia|rewrite wwords_1; auto|rewrite Hl; auto|].
  exists (F :: g). cbn [map mapM]. rewrite EF. cbn [bind]. rewrite E. split; [reflexivity|]. constructor; auto.
Qed.

Lemma groups_exist n k W : 0 < k -> (forall w, In w W -> In w (words 3 k)) -> forall qs, (forall q, In q qs -> qtuple n k q) ->
  exists gs, mapM (fun q => mapM (fun p => get_full_operator p q n) (map (op_of (K := C)) W)) qs = Ok gs /\ Forall2 (group_ok n W) qs gs.
Proof.
  intros Hk HW. induction qs as [|q qs IH]; intros Hq; [exists []; split; [reflexivity|constructor]|].
  destruct IH as (gs & E & H); [intros; apply Hq; right; auto|].
  destruct (group_exists n k q W Hk HW) as (g & Eg & Hg); [apply Hq; left; auto|].
  exists (g :: gs). cbn [mapM]. rewrite Eg. cbn [bind]. rewrite E. split; [reflexivity|]. constructor; auto.
Qed.

Definition local_args_ok (n locality : nat) (eta : R) (stride : nat) (ds : option (list string)) : Prop :=
  (0 <= eta <= 1)%R /\ (locality = 1 \/ locality = 2) /\ (locality = 2 -> Nat.even n = true /\ (stride = 0 \/ stride = 1)) /\
  match ds with None => True | Some l => forall d, In d l -> In d (wnames [locality]) end.

Lemma local_init n obs Fs locality eta stride ds check trot :
  mapM (full n) obs = Ok Fs -> local_args_ok n locality eta stride ds ->
  exists gs, LocalLieAlgebraLayer n obs locality eta stride ds check trot =
    Ok (mklocal n locality (if Nat.eqb locality 2 then stride else 0) eta check trot (map wname (chosen locality ds)) Fs gs) /\
    Forall2 (group_ok n (chosen locality ds)) (combinations (seq 0 n) locality) gs.
Proof.
  intros EF (He & Hl & Hs & Hd).
  destruct (groups_exist n locality (chosen locality ds)) with (qs := combinations (seq 0 n) locality) as (gs & Eg & Hg).
  { lia. } { apply chosen_incl. } { intros q. apply comb_seq. }
  exists gs. split; [|exact Hg]. unfold LocalLieAlgebraLayer. rewrite EF. cbn [bind].
  assert (E1 : Rleb 0 eta && Rleb eta 1 = true) by (apply andb_true_iff; rewrite !Rleb_true; auto). rewrite E1. cbn [py_assert bind].
  assert (E2 : forall l, forallb (fun d => str_in d (wnames [locality])) l = true <-> (forall d, In d l -> In d (wnames [locality]))).
  { intros l. rewrite forallb_forall. split; intros H d Hin; apply str_in_spec; auto. }
  destruct Hl as [-> | ->]; cbn [Nat.eqb orb py_assert bind].
  - rewrite su2_eq. cbn [su_names snd fst bind]. destruct ds as [l|].
    + rewrite (proj2 (E2 l) Hd). cbn [py_assert bind]. rewrite wnames_1, keep_eq, !map_map. cbn [fst snd].
      rewrite <- singles_comb. change (map (fun x => op_of x) (chosen 1 (Some l))) with (map (op_of (K := C)) (chosen 1 (Some l))). rewrite Eg. reflexivity.
    + cbn [bind chosen] in *. rewrite wnames_1. rewrite <- singles_comb. rewrite Eg. reflexivity.
  - destruct (Hs eq_refl) as [Hev Hst]. rewrite Hev. cbn [py_assert bind]. rewrite su4_eq. cbn [bind su_names snd fst].
    assert (E3 : (stride =? 0) || (stride =? 1) = true) by (destruct Hst as [-> | ->]; reflexivity). rewrite E3. cbn [py_assert bind].
    destruct ds as [l|].
    + rewrite (proj2 (E2 l) Hd). cbn [py_assert bind]. rewrite wnames_1, keep_eq, !map_map. cbn [fst snd].
      change (map (fun x => op_of x) (chosen 2 (Some l))) with (map (op_of (K := C)) (chosen 2 (Some l))). rewrite Eg. reflexivity.
    + cbn [bind chosen] in *. rewrite wnames_1. rewrite Eg. reflexivity.
Qed.

Lemma py_assert_false b {A} (f : unit -> res A) : b = false -> bind (py_assert b) f = Err AssertionError.
Proof. intros ->. reflexivity. Qed.

Lemma local_reject n obs Fs locality eta stride ds check trot :
  mapM (full n) obs = Ok Fs -> ~ local_args_ok n locality eta stride ds ->
  LocalLieAlgebraLayer n obs locality eta stride ds check trot = Err AssertionError.
Proof.
  intros EF Hn. unfold LocalLieAlgebraLayer. rewrite EF. cbn [bind].
  destruct (Rleb 0 eta && Rleb eta 1) eqn:E1; [|reflexivity]. cbn [py_assert bind].
  apply andb_true_iff in E1. rewrite !Rleb_true in E1.
  destruct ((locality =? 1) || (locality =? 2)) eqn:E2; [|reflexivity]. cbn [py_assert bind].
  assert (Hl : locality = 1 \/ locality = 2) by (apply orb_true_iff in E2; rewrite !Nat.eqb_eq in E2; auto).
  assert (E3 : forall l, forallb (fun d => str_in d (wnames [locality])) l = true -> (forall d, In d l -> In d (wnames [locality]))).
  { intros l H d Hin. rewrite forallb_forall in H. apply str_in_spec; auto. }
  destruct Hl as [-> | ->]; cbn [Nat.eqb].
  - rewrite su2_eq. cbn [su_names snd fst bind]. destruct ds as [l|].
    + destruct (forallb (fun d => str_in d (wnames [1])) l) eqn:E4; [|reflexivity].
      exfalso. apply Hn. split; [tauto|]. split; [auto|]. split; [discriminate|]. exact (E3 l E4).
    + exfalso. apply Hn. split; [tauto|]. split; [auto|]. split; [discriminate|]. exact I.
  - destruct (Nat.even n) eqn:E5; [|reflexivity]. cbn [py_assert bind]. rewrite su4_eq. cbn [bind su_names snd fst].
    destruct ((stride =? 0) || (stride =? 1)) eqn:E6; [|reflexivity]. cbn [py_assert bind].
    assert (Hst : stride = 0 \/ stride = 1) by (apply orb_true_iff in E6; rewrite !Nat.eqb_eq in E6; auto).
    destruct ds as [l|].
    + destruct (forallb (fun d => str_in d (wnames [2])) l) eqn:E4; [|reflexivity].
      exfalso. apply Hn. split; [tauto|]. split; [auto|]. split; [auto|]. exact (E3 l E4).
    + exfalso. apply Hn. split; [tauto|]. split; [auto|]. split; [auto|]. exact I.
Qed.

Lemma key_ok_hermitian n kF : key_ok (K := C) n kF -> hermitian (2 ^ n) (a_ent (snd kF)).
Proof.
  intros (w & _ & Hw & Hq & _ & _ & _ & M).
  assert (H : hermitian (2 ^ n) (emb n (snd (fst kF)) (pword (K := C) (up w)))).
  { apply emb_hermitian. assert (Hlq : List.length (snd (fst kF)) = List.length (up w)) by (rewrite up_length; apply Hq).
    rewrite Hlq. apply pword_herm. apply Forall_forall. intros g Hg. apply in_map_iff in Hg. destruct Hg as (x & <- & Hx).
    rewrite Forall_forall in Hw. specialize (Hw x Hx). lia. }
  unfold hermitian in *. rewrite M. exact H.
Qed.

Lemma group_hermitian n W q g : group_ok n W q g -> Forall (fun P => hermitian (2 ^ n) (a_ent P)) g.
Proof. induction 1; constructor; auto. apply (key_ok_hermitian n ((wname x, q), y)); auto. Qed.

Lemma groups_hermitian n W qs gs : Forall2 (group_ok n W) qs gs -> Forall (Forall (fun P => hermitian (2 ^ n) (a_ent P))) gs.
Proof. induction 1; constructor; auto. eapply group_hermitian; eauto. Qed.

Lemma groups_nonempty n W qs gs : W <> [] -> Forall2 (group_ok n W) qs gs -> Forall (fun g => g <> []) gs.
Proof. intros HW. induction 1 as [|q g qs gs Hg _ IH]; constructor; auto. intros ->. inversion Hg. subst. congruence. Qed.

Lemma obs_full n (obs : list (qop C)) : Forall (valid_qop n) obs -> Forall local_hermitian obs -> exists Fs,
  mapM (full n) obs = Ok Fs /\ Forall2 (fun F o => meq (2 ^ n) (a_ent F) (qmat n o)) Fs obs /\
  Forall (fun O => hermitian (2 ^ n) (a_ent O)) Fs.
Proof.
  intros Hv Hh. destruct (mapM_full n obs Hv) as (Fs & E & HF). exists Fs. split; auto. split; auto. clear E Hv.
  induction HF as [|F o Fs obs M _ IH]; constructor; inversion Hh; subst; auto.
  pose proof (qmat_hermitian n o H1) as Hq. unfold hermitian in *. rewrite M. exact Hq.
Qed.

(** ** Custom *)
Lemma custom_items n : exists full, (do a0 <- AlgebraSU4 (K := C) n true; get_all_directions_and_qubits a0) =
    Ok (mkalg (mkcore n (wnames [1; 2]) (al_paulis (core0 n [1; 2])) full) (repeat 0 n)) /\
  map fst full = all_keys n [1; 2] /\ Forall (key_ok n) full.
Proof.
  destruct (enumerate_spec (K := C) n [1; 2]) as (full & E1 & E2 & E3 & _).
  { repeat constructor; simpl; lia. } { simpl; lia. }
  exists full. rewrite AlgebraSU4_eq. cbn [bind]. change (ks4 true) with [1; 2]. unfold core0 at 1. rewrite get_all_keys by (simpl; lia).
  fold (core0 (K := C) n [1; 2]). rewrite E1. cbn [bind]. auto.
Qed.

Definition kept (ds : list string) (full : list (key * arr C)) : list (key * arr C) :=
  filter (fun kv => str_in (fst (fst kv)) ds) full.

Lemma combine_split_map {A B D} (f : A -> B) (g : A -> D) l : combine (map f l) (map g l) = map (fun a => (f a, g a)) l.
Proof. apply combine_map_same. Qed.

Lemma NoDup_filter_fst {A B} (p : A * B -> bool) l : NoDup (map fst l) -> NoDup (map fst (filter p l)).
Proof.
  induction l as [|a l IH]; simpl; intros H; auto. inversion H as [|x y Hx Hy]; subst. destruct (p a); simpl; auto.
  constructor; auto. intros Hin. apply Hx. apply in_map_iff in Hin. destruct Hin as (b & E & Hb). apply filter_In in Hb.
  apply in_map_iff. exists b. tauto.
Qed.

Lemma custom_init n obs Fs eta ds check trot full :
  (do a0 <- AlgebraSU4 (K := C) n true; get_all_directions_and_qubits a0) =
    Ok (mkalg (mkcore n (wnames [1; 2]) (al_paulis (core0 n [1; 2])) full) (repeat 0 n)) -> map fst full = all_keys n [1; 2] ->
  mapM (CircuitModel.full n) obs = Ok Fs -> (0 <= eta <= 1)%R ->
  CustomDirectionLieAlgebraLayer n obs ds eta check trot =
    match ds with
    | None => Ok (mkcustom n eta check trot (map fst full) (map (fun kv => (fst kv, OKey (fst kv))) full) Fs)
    | Some l => if forallb (fun d => str_in d (wnames [1; 2])) l
                then Ok (mkcustom n eta check trot (map fst (kept l full)) (map (fun kv => (fst kv, OMat (snd kv))) (kept l full)) Fs)
                else Err AssertionError
    end.
Proof.
  intros Ea Ek EF He. unfold CustomDirectionLieAlgebraLayer. rewrite EF. cbn [bind].
  assert (E1 : Rleb 0 eta && Rleb eta 1 = true) by (apply andb_true_iff; rewrite !Rleb_true; auto). rewrite E1. cbn [py_assert bind].
  rewrite AlgebraSU4_eq in *. cbn [bind] in *. rewrite Ea. cbn [bind al_core al_full al_directions].
  assert (Hnd : NoDup (map fst full)). { rewrite Ek. apply all_keys_NoDup. repeat constructor; simpl; lia. }
  destruct ds as [l|].
  - destruct (forallb _ l); [|reflexivity]. cbn [py_assert bind]. fold (kept l full).
    rewrite dzip_NoDup; [|apply key_eqb_spec|apply NoDup_filter_fst; auto]. rewrite combine_map_same. reflexivity.
  - cbn [bind]. rewrite dzip_NoDup; [|apply key_eqb_spec|auto]. rewrite combine_map_same. reflexivity.
Qed.

Lemma mapM_as_array (l : list (key * arr C)) : mapM as_array (map snd (map (fun kv => (fst kv, OMat (snd kv))) l)) = Ok (map snd l).
Proof. induction l as [|a l IH]; simpl; auto. rewrite IH. auto. Qed.

Lemma foldM_ext {A B} (f g : B -> A -> res B) l : (forall b a, f b a = g b a) -> forall b, foldM f l b = foldM g l b.
Proof. intros H. induction l as [|a l IH]; intros b; cbn [foldM]; auto. rewrite H. destruct (g b a); cbn [bind]; auto. Qed.

Lemma custom_call_eq svd n eta check trot ds ps Fs U :
  custom_call svd (mkcustom n eta check trot ds (map (fun kv => (fst kv, OMat (snd kv))) ps) Fs) U =
  foldM (fun u O => foldM (fun v g => group_step svd check trot n eta (qnode_state U) (a_ent O) g v) [map snd ps] u) Fs U.
Proof.
  unfold custom_call. cbn [cu_full_paulis cu_check cu_trotterize cu_n cu_eta cu_observables]. apply foldM_ext. intros u O.
  rewrite mapM_as_array. cbn [bind foldM]. destruct (group_step _ _ _ _ _ _ _ _ _); reflexivity.
Qed.

Lemma kept_hermitian n l full : Forall (key_ok (K := C) n) full -> Forall (fun P => hermitian (2 ^ n) (a_ent P)) (map snd (kept l full)).
Proof.
  intros H. apply Forall_forall. intros P HP. apply in_map_iff in HP. destruct HP as (kF & <- & Hk). apply filter_In in Hk.
  rewrite Forall_forall in H. apply key_ok_hermitian. apply H. tauto.
Qed.
