(** Property C88: the plots of directions of oranssi/plot_utils.py. *)
From Coq Require Import ZArith Arith Lia Bool String Ascii Permutation Reals Lra Classical.
From Coquelicot Require Import Coquelicot.
From Verif Require Import Py StarRing Matrix Cplx PauliSpec Bits PauliBasis UtilsModel UtilsProofs CircuitModel CircuitProofs CircuitProofs2
  AlgebraModel AlgebraProofs LayerModel AdaptProofs PropLayers PlotModel.
From Verif Require PropCircuit.
From Coq Require Import List.
Import ListNotations.
Local Open Scope nat_scope.
Local Open Scope list_scope.

(** ** Specification *)

(** the words of n letters 0..3 (I, X, Y, Z) with exactly i identities *)
Definition word_with (n i : nat) (w : list nat) : Prop :=
  List.length w = n /\ Forall (fun g => g <= 3) w /\ count_occ Nat.eq_dec w 0 = i.

(** Im <x|[P,H]|x> / 2^n for the word P, the state x = U e_0 and the observable H *)
Definition word_direction (n : nat) (H U : mat C) (w : list nat) : R :=
  let x := fun i => U i 0 in
  let K := msub (mmul (2 ^ n) (pword w) H) (mmul (2 ^ n) H (pword w)) in
  (Im (lsum (fun i => lsum (fun j => Cmult (Cmult (Cconj (x i)) (K i j)) (x j)) (seq 0 (2 ^ n))) (seq 0 (2 ^ n))) / 2 ^ n)%R.

(** x is the sum of the absolute values of the directions with i identities *)
Definition total_direction (n i : nat) (H U : mat C) (x : R) : Prop :=
  exists W, NoDup W /\ (forall w, In w W <-> word_with n i w) /\ x = rsum (fun w => Rabs (word_direction n H U w)) W.

(** a figure with the dashed line at 0 and one curve of sums for each label *)
Definition sums_figure (n : nat) (H : mat C) (us : list (mat C)) (labels : list string) (cs : list curve) : Prop :=
  exists vs, cs = ("Min."%string, repeat 0%R (List.length us)) :: combine labels vs /\ List.length vs = List.length labels /\
  forall i v, nth_error vs i = Some v -> Forall2 (total_direction n i H) us v.

(** a figure with the curves of the words with i identities that leave 0, in some order *)
Definition words_figure (n i : nat) (H : mat C) (us : list (mat C)) (cs : list curve) : Prop :=
  NoDup (map fst cs) /\
  forall name v, In (name, v) cs <->
    exists w, word_with n i w /\ name = word_name w /\ v = map (fun U => word_direction n H U w) us /\
      exists x, In x v /\ (/ 100000000 < Rabs x)%R.

(** the state is an eigenvector of H *)
Definition stationary (n : nat) (H U : mat C) : Prop :=
  exists lam : R, forall i, i < 2 ^ n -> lsum (fun j => Cmult (H i j) (U j 0)) (seq 0 (2 ^ n)) = Cmult (RtoC lam) (U i 0).

(** ** Lemmas *)

Lemma count_word w : Forall (fun g => g <= 3) w -> count_I (word_name w) = count_occ Nat.eq_dec w 0.
Proof.
  induction 1 as [|g w Hg _ IH]; [reflexivity|]. cbn [word_name fold_right count_I]. fold (word_name w). rewrite IH.
  destruct g as [|[|[|[|g]]]]; try lia; reflexivity.
Qed.

Lemma words4 n w : In w (words 4 n) <-> List.length w = n /\ Forall (fun g => g <= 3) w.
Proof.
  rewrite words_spec. split; intros [H1 H2]; split; auto; (eapply Forall_impl; [|exact H2]); simpl; intros; lia.
Qed.

Lemma filter_with n i w : In w (filter (fun w => Nat.eqb (count_occ Nat.eq_dec w 0) i) (words 4 n)) <-> word_with n i w.
Proof. rewrite filter_In, words4, Nat.eqb_eq. unfold word_with. tauto. Qed.

Section Omegas.
Variable n : nat.
Variable us : list (mat C).
Variable D : mat C -> list nat -> R.
Definition omegas_of : list omega_dict := map (fun U => map (fun w => (word_name w, D U w)) (words 4 n)) us.

Lemma names_nodup : NoDup (map word_name (words 4 n)).
Proof.
  assert (G : forall l, NoDup l -> (forall w, In w l -> Forall (fun g => g <= 3) w) -> NoDup (map word_name l)).
  { induction 1 as [|w l Hn Hd IH]; simpl; intros Hl; constructor; [|apply IH; auto].
    intros Hin. apply in_map_iff in Hin. destruct Hin as (v & E & Hv). apply word_name_inj in E; [subst; auto| |]; apply Hl; auto. }
  apply G; [apply words_NoDup|]. intros w Hw. apply words4 in Hw. tauto.
Qed.

Lemma dget_word U w : In w (words 4 n) -> dget String.eqb (map (fun w => (word_name w, D U w)) (words 4 n)) (word_name w) = Ok (D U w).
Proof.
  intros Hw. apply (dget_In String.eqb String.eqb_eq).
  - rewrite map_map. exact names_nodup.
  - apply in_map_iff. eauto.
Qed.

Lemma steps_word w : In w (words 4 n) -> steps_of omegas_of (word_name w) = Ok (map (fun U => D U w) us).
Proof.
  intros Hw. unfold steps_of, omegas_of. induction us as [|U r IH]; [reflexivity|]. cbn [map mapM].
  rewrite dget_word by auto. rewrite IH. reflexivity.
Qed.

Lemma steps_missing k : us <> [] -> String.length k <> n -> steps_of omegas_of k = Err KeyError.
Proof.
  intros Hu Hk. unfold steps_of, omegas_of. destruct us as [|U r]; [congruence|]. cbn [map mapM].
  rewrite (dget_missing String.eqb String.eqb_eq); [reflexivity|]. rewrite map_map. intros Hin. apply in_map_iff in Hin.
  destruct Hin as (w & E & Hw). apply words4 in Hw. cbn [fst] in E. apply Hk. rewrite <- E. rewrite word_name_length. tauto.
Qed.

(** the dictionary omegas_length_m with r rows *)
Definition table (r : nat) (g : nat -> mat C -> R) : list (nat * list R) := map (fun i => (i, map (g i) us)) (seq 0 r).

Lemma table_ext r g h : (forall i U, i < r -> g i U = h i U) -> table r g = table r h.
Proof.
  intros H. unfold table. apply map_ext_in. intros i Hi. apply in_seq in Hi. f_equal. apply map_ext. intros U. apply H. lia.
Qed.

Lemma table_get r g i : i < r -> dget Nat.eqb (table r g) i = Ok (map (g i) us).
Proof.
  intros Hi. apply (dget_In Nat.eqb Nat.eqb_eq).
  - unfold table. rewrite map_map. cbn [fst]. rewrite map_id. apply seq_NoDup.
  - unfold table. apply in_map_iff. exists i. split; [reflexivity|]. apply in_seq. lia.
Qed.

Lemma table_mem r g i : dmem Nat.eqb (table r g) i = Nat.ltb i r.
Proof.
  apply eq_true_iff_eq. rewrite (dmem_spec Nat.eqb Nat.eqb_eq). unfold table. rewrite map_map. cbn [fst]. rewrite map_id.
  rewrite in_seq, Nat.ltb_lt. lia.
Qed.

Lemma table_set r g k f : k < r ->
  dset Nat.eqb (table r g) k (map f us) = table r (fun i U => if Nat.eqb i k then f U else g i U).
Proof.
  intros Hk. unfold table. assert (G : forall s m, s <= k < s + m ->
    dset Nat.eqb (map (fun i => (i, map (g i) us)) (seq s m)) k (map f us) =
    map (fun i => (i, map (fun U => if Nat.eqb i k then f U else g i U) us)) (seq s m)).
  { intros s m; revert s. induction m as [|m IH]; intros s Hs; [lia|]. cbn [seq map dset].
    destruct (Nat.eqb_spec s k) as [->|Hn].
    - f_equal. apply map_ext_in. intros i Hi. apply in_seq in Hi. f_equal. apply map_ext. intros U.
      destruct (Nat.eqb_spec i k); [lia|reflexivity].
    - f_equal. apply IH. lia. }
  apply G. lia.
Qed.

Lemma vadd_map (f h : mat C -> R) : vadd (map f us) (map Rabs (map h us)) = map (fun U => (f U + Rabs (h U))%R) us.
Proof. unfold vadd. rewrite map_map, combine_map_same, map_map. reflexivity. Qed.

Definition part (L : list (list nat)) (i : nat) (U : mat C) : R :=
  rsum (fun w => Rabs (D U w)) (filter (fun w => Nat.eqb (count_occ Nat.eq_dec w 0) i) L).

Lemma accumulate_all r L : (forall w, In w L -> In w (words 4 n)) -> forall g,
  foldM (accumulate omegas_of) (map word_name L) (table r g) = Ok (table r (fun i U => (g i U + part L i U)%R)).
Proof.
  induction L as [|w L IH]; intros HL g; cbn [map foldM].
  - f_equal. apply table_ext. intros i U _. unfold part. simpl. ring.
  - assert (Hw : In w (words 4 n)) by (apply HL; left; auto). pose proof (proj1 (words4 n w) Hw) as [_ Hl].
    unfold accumulate at 1. rewrite (count_word w Hl), table_mem.
    set (k := count_occ Nat.eq_dec w 0) in *.
    destruct (Nat.ltb_spec k r) as [Hk|Hk].
    + rewrite (steps_word w Hw). cbn [bind]. rewrite table_get by auto. cbn [bind].
      rewrite vadd_map, table_set by auto. rewrite IH by (intros; apply HL; right; auto). f_equal. apply table_ext.
      intros i U _. unfold part. cbn [filter]. fold k. destruct (Nat.eqb_spec i k) as [->|Hn].
      * rewrite Nat.eqb_refl. cbn [rsum]. ring.
      * destruct (Nat.eqb_spec k i); [lia|]. reflexivity.
    + cbn [bind]. rewrite IH by (intros; apply HL; right; auto). f_equal. apply table_ext. intros i U Hi. unfold part. cbn [filter]. fold k.
      destruct (Nat.eqb_spec k i); [lia|]. reflexivity.
Qed.

Lemma zeros_table r : zeros r (List.length us) = table r (fun _ _ => 0%R).
Proof. unfold zeros, table. apply map_ext. intros i. f_equal. induction us; simpl; congruence. Qed.

Lemma named_all L i : (forall w, In w L -> In w (words 4 n)) ->
  named_curves omegas_of i (map word_name L) =
  Ok (map (fun w => (word_name w, map (fun U => D U w) us)) (filter (fun w => Nat.eqb (count_occ Nat.eq_dec w 0) i) L)).
Proof.
  unfold named_curves. induction L as [|w L IH]; intros HL; [reflexivity|]. cbn [map filter].
  assert (Hw : In w (words 4 n)) by (apply HL; left; auto). pose proof (proj1 (words4 n w) Hw) as [_ Hl].
  rewrite (count_word w Hl). destruct (Nat.eqb (count_occ Nat.eq_dec w 0) i).
  - cbn [mapM map]. rewrite (steps_word w Hw). cbn [bind]. rewrite IH by (intros; apply HL; right; auto). reflexivity.
  - apply IH. intros; apply HL; right; auto.
Qed.

Lemma first_names U r : us = U :: r -> exists f, list_get omegas_of 0 = Ok f /\ map fst f = map word_name (words 4 n).
Proof. intros E. unfold omegas_of. rewrite E. eexists. split; [reflexivity|]. rewrite map_map. reflexivity. Qed.

Lemma curves_table r g labels : List.length labels = S r ->
  length_curves labels (table (S r) g) =
  Ok (("Min."%string, repeat 0%R (List.length us)) :: combine labels (map (fun i => map (g i) us) (seq 0 (S r)))).
Proof.
  intros Hl. unfold length_curves. rewrite table_get by lia. cbn [bind]. rewrite map_length, Hl.
  assert (G : forall l s, s + List.length l <= S r ->
    mapM (fun il : nat * string => do v <- dget Nat.eqb (table (S r) g) (fst il); Ok (snd il, v)) (combine (seq s (List.length l)) l) =
    Ok (combine l (map (fun i => map (g i) us) (seq s (List.length l))))).
  { induction l as [|a l IH]; intros s Hs; [reflexivity|]. cbn [List.length seq combine mapM map fst snd] in *.
    rewrite table_get by lia. cbn [bind]. rewrite IH by lia. reflexivity. }
  specialize (G labels 0). rewrite Hl in G. rewrite G by lia. reflexivity.
Qed.
End Omegas.

Lemma figure_of n H us r labels : List.length labels = r ->
  sums_figure n H us labels (("Min."%string, repeat 0%R (List.length us)) ::
    combine labels (map (fun i => map (fun U => (0 + part (word_direction n H) (words 4 n) i U)%R) us) (seq 0 r))).
Proof.
  intros Hl. eexists. split; [reflexivity|]. split; [rewrite map_length, seq_length; auto|].
  intros i v E. rewrite nth_error_map in E. destruct (nth_error (seq 0 r) i) as [j|] eqn:Ej; [|discriminate].
  assert (Hj : j = i).
  { pose proof (nth_error_nth _ _ 0 Ej) as E'. apply nth_error_Some_length in Ej || (assert (Ej2 := proj1 (nth_error_Some (seq 0 r) i)); rewrite Ej in Ej2; specialize (Ej2 ltac:(discriminate)); rewrite seq_length in Ej2; rewrite seq_nth in E' by auto; lia). }
  subst j. simpl in E. injection E as <-. clear. induction us as [|U us IH]; constructor; auto.
  exists (filter (fun w => Nat.eqb (count_occ Nat.eq_dec w 0) i) (words 4 n)).
  split; [apply NoDup_filter; apply words_NoDup|]. split; [intros w; apply filter_with|]. unfold part. ring.
Qed.

Lemma not_small v : negb (all_small v) = true <-> exists x, In x v /\ (/ 100000000 < Rabs x)%R.
Proof.
  unfold all_small. induction v as [|x v IH]; cbn [forallb].
  - split; [discriminate|]. intros (x & [] & _).
  - destruct (Rle_dec (Rabs x) (/ 100000000)) as [Hx|Hx]; cbn [andb].
    + rewrite IH. split; intros (y & Hy & Hb); exists y; [split; [right|]; auto|]. destruct Hy as [<-|Hy]; [lra|auto].
    + split; [|auto]. intros _. exists x. split; [left; auto|lra].
Qed.

Lemma figure_words n i H us : words_figure n i H us
  (visible (map (fun w => (word_name w, map (fun U => word_direction n H U w) us)) (filter (fun w => Nat.eqb (count_occ Nat.eq_dec w 0) i) (words 4 n)))).
Proof.
  split.
  - assert (G : forall l (p : list nat -> bool), NoDup (map word_name l) ->
      NoDup (map fst (visible (map (fun w => (word_name w, map (fun U => word_direction n H U w) us)) (filter p l)))) /\
      incl (map fst (visible (map (fun w => (word_name w, map (fun U => word_direction n H U w) us)) (filter p l)))) (map word_name l)).
    { intros l p. unfold visible. induction l as [|w l IH]; intros Hl; [split; [constructor|intros ? []]|].
      inversion Hl; subst. destruct (IH H3) as [I1 I2]. cbn [filter]. destruct (p w); cbn [map filter].
      - destruct (negb _); cbn [map]; (split; [|]).
        + constructor; [|exact I1]. intros Hc. apply H2. apply I2. exact Hc.
        + cbn [fst]. intros a [<-|Ha]; [left; auto|right; apply I2; auto].
        + exact I1.
        + intros a Ha. right. apply I2; auto.
      - split; [exact I1|]. intros a Ha. right. apply I2; auto. }
    apply G. apply names_nodup.
  - intros name v. unfold visible. rewrite filter_In, in_map_iff. cbn [snd]. rewrite not_small. split.
    + intros [(w & E & Hw) Hx]. injection E as <- <-. apply filter_with in Hw. exists w. auto.
    + intros (w & Hw & -> & -> & Hx). split; [|exact Hx]. exists w. split; [reflexivity|]. apply filter_with. exact Hw.
Qed.

Lemma omegas_eq n us obs : Forall (fits n) obs -> exists Fs,
  mapM (fun o => get_full_operator (q_matrix o) (q_wires o) n) obs = Ok Fs /\
  all_omegas n us obs = Ok (omegas_of n us (word_direction n (msum a_ent Fs))).
Proof.
  intros Hf. destruct (mapM_full n obs Hf) as (Fs & EF & HF). exists Fs. split; [exact EF|].
  assert (EH : meq (2 ^ n) (msum a_ent Fs) (obs_sum n obs)).
  { clear - HF. intros i j Hi Hj. unfold obs_sum, msum. induction HF as [|F o Fs' obs' HM _ IH]; [reflexivity|].
    rewrite !lsum_cons, IH, (HM i j Hi Hj). reflexivity. }
  unfold all_omegas, omegas_of. induction us as [|U us IH]; [reflexivity|]. cbn [mapM map].
  rewrite (directions_spec n U obs Hf), IH. cbn [bind]. f_equal. f_equal. apply map_ext. intros w. f_equal.
  change (word_direction n (msum a_ent Fs) U w) with
    (Im (quad (2 ^ n) (qnode_state U) (msub (mmul (2 ^ n) (pword w) (msum a_ent Fs)) (mmul (2 ^ n) (msum a_ent Fs) (pword w)))) / 2 ^ n)%R.
  f_equal. f_equal. apply quad_comm_ext; [reflexivity|]. symmetry. exact EH.
Qed.

Lemma XXXX_word : "XXXX"%string = word_name [1; 1; 1; 1]. Proof. reflexivity. Qed.
Lemma XX_word : "XX"%string = word_name [1; 1]. Proof. reflexivity. Qed.

(** all sums over the words with fewer than n identities vanish exactly at the
    eigenvectors of the sum of the observables *)
Lemma sums_stationary n U obs Fs : unitary (2 ^ n) U -> Forall (fits n) obs -> Forall hermitian_obs obs ->
  mapM (fun o => get_full_operator (q_matrix o) (q_wires o) n) obs = Ok Fs ->
  ((forall i x, i < n -> total_direction n i (msum a_ent Fs) U x -> x = 0%R) <-> stationary n (msum a_ent Fs) U).
Proof.
  intros HU Hf Hh EF. destruct (PropCircuit.C38_directions n U obs HU Hf Hh) as (Fs' & names & ops & dirs & E1 & _ & E3 & _ & _ & _ & Hz & Hs).
  rewrite EF in E1. injection E1 as <-. unfold stationary. rewrite <- Hs. clear Hs.
  destruct (omegas_eq n [U] obs Hf) as (Fs' & EF' & EO). rewrite EF in EF'. injection EF' as <-.
  unfold all_omegas, omegas_of in EO. cbn [mapM map] in EO. rewrite E3 in EO. cbn [bind] in EO. injection EO as ->.
  set (H := msum a_ent Fs) in *. clearbody H.
  assert (Z : word_direction n H U (repeat 0 n) = 0%R).
  { apply in_map_iff in Hz. destruct Hz as (w & E & Hw). injection E as En Ev. apply words4 in Hw.
    apply word_name_inj in En; [|tauto|apply Forall_forall; intros y Hy; apply repeat_spec in Hy; lia]. subst w. exact Ev. }
  assert (A : forall w, List.length w = n -> count_occ Nat.eq_dec w 0 = n -> w = repeat 0 n).
  { clear. induction n as [|n IH]; intros [|g w] Hl Hc; simpl in Hl; try lia; [reflexivity|]. simpl in Hc.
    pose proof (count_occ_bound Nat.eq_dec 0 w) as Hb.
    destruct (Nat.eq_dec g 0) as [->|Hg]; [|lia]. simpl. f_equal. apply IH; lia. }
  split.
  - intros Hall p Hp. apply in_map_iff in Hp. destruct Hp as (w & <- & Hw). cbn [snd].
    pose proof (proj1 (words4 n w) Hw) as [Hl H3]. pose proof (count_occ_bound Nat.eq_dec 0 w) as Hb.
    destruct (Nat.eq_dec (count_occ Nat.eq_dec w 0) n) as [Hc|Hc]; [rewrite (A w Hl Hc); exact Z|].
    set (i := count_occ Nat.eq_dec w 0) in *.
    set (W := filter (fun w => Nat.eqb (count_occ Nat.eq_dec w 0) i) (words 4 n)).
    assert (Hin : In w W) by (apply filter_with; split; auto).
    assert (S0 : rsum (fun w => Rabs (word_direction n H U w)) W = 0%R).
    { apply (Hall i); [lia|]. exists W. split; [apply NoDup_filter, words_NoDup|]. split; [intros; apply filter_with|reflexivity]. }
    clear - S0 Hin. assert (P : forall l, (0 <= rsum (fun w => Rabs (word_direction n H U w)) l)%R).
    { induction l as [|a l IH]; cbn [rsum]; [lra|]. pose proof (Rabs_pos (word_direction n H U a)). lra. }
    induction W as [|a W IH]; [destruct Hin|]. cbn [rsum] in S0. pose proof (P W). pose proof (Rabs_pos (word_direction n H U a)).
    destruct Hin as [->|Hin]; [|apply IH; auto; lra].
    destruct (Req_dec (word_direction n H U w) 0) as [|Hn]; auto. apply Rabs_pos_lt in Hn. lra.
  - intros Hall i x Hi (W & _ & HW & ->).
    assert (G : forall w, In w W -> word_direction n H U w = 0%R).
    { intros w Hw. apply HW in Hw. apply (Hall (word_name w, word_direction n H U w)). apply in_map_iff. exists w. split; [reflexivity|].
      apply words4. split; apply Hw. }
    clear - G. induction W as [|a W IH]; cbn [rsum]; [reflexivity|]. rewrite (G a) by (left; auto). rewrite Rabs_R0, IH; [ring|].
    intros w Hw. apply G. right; auto.
Qed.

(** ** C88 *)

(** The claim that every plot works on a device of the size in its name is false:
    the SU(8) plots fail on three qubits whatever is measured, and the plot with
    four panels fails always. *)
Theorem C88_direction_plots_refuted : forall nqubits us (obs : list (qop C)),
  us <> [] -> Forall (fits 3) obs ->
  plot_su8_directions nqubits 3 us obs = Err KeyError /\
  plot_su8_directions_individually 3 us obs = Err KeyError /\
  plot_su16_directions_separate us = Err TypeError.
Proof.
  intros nq us obs Hu Hf. destruct (omegas_eq 3 us obs Hf) as (Fs & _ & EO).
  assert (E : su8_data 3 us obs = Err KeyError).
  { unfold su8_data. rewrite EO. cbn [bind]. rewrite steps_missing by (auto; simpl; lia). reflexivity. }
  unfold plot_su8_directions, plot_su8_directions_individually. rewrite E. split; [reflexivity|]. split; [reflexivity|].
  destruct us as [|U r]; [congruence|]. reflexivity.
Qed.
Print Assumptions C88_direction_plots_refuted.

(** What holds. Missing: the plots above on the devices where they fail. *)
Theorem C88_direction_plots_partial : forall n us (obs : list (qop C)),
  Forall (fits n) obs -> exists Fs,
  mapM (fun o => get_full_operator (q_matrix o) (q_wires o) n) obs = Ok Fs /\
  let H := msum a_ent Fs in
  (us = [] -> forall q, plot_su16_directions q n us obs = Err IndexError /\ plot_su8_directions q n us obs = Err IndexError /\
     plot_su8_directions_individually n us obs = Err IndexError /\ plot_su16_directions_separate us = Err IndexError) /\
  (us <> [] -> forall q,
     (n <> 4 -> plot_su16_directions q n us obs = Err KeyError) /\
     (n <> 2 -> plot_su8_directions q n us obs = Err KeyError /\ plot_su8_directions_individually n us obs = Err KeyError) /\
     (n = 4 -> exists cs, plot_su16_directions q n us obs = Ok cs /\
        sums_figure n H us ["SU$(16)$"; "SU$(8)$"; "SU$(4)$"; "SU$(2)$"]%string cs) /\
     (n = 2 -> exists one none cs, words_figure n 1 H us one /\ words_figure n 0 H us none /\
        sums_figure n H us ["SU$(4)$"; "SU$(2)$"]%string cs /\
        plot_su8_directions_individually n us obs = Ok (one ++ none) /\
        plot_su8_directions q n us obs = Ok (one ++ none, cs))) /\
  (Forall hermitian_obs obs -> forall U, In U us -> unitary (2 ^ n) U ->
     ((forall i x, i < n -> total_direction n i H U x -> x = 0%R) <-> stationary n H U)).
Proof.
  intros n us obs Hf. destruct (omegas_eq n us obs Hf) as (Fs & EF & EO). exists Fs. split; [exact EF|]. intros H. change (msum a_ent Fs) with H in EO.
  split; [|split].
  - intros -> q. unfold plot_su16_directions, plot_su8_directions, plot_su8_directions_individually, su8_data. rewrite EO. repeat split; reflexivity.
  - intros Hu q.
    assert (Hlist : exists f, list_get (omegas_of n us (word_direction n H)) 0 = Ok f /\
              map fst f = map word_name (words 4 n)).
    { destruct us as [|U r]; [congruence|]. eapply first_names. reflexivity. }
    destruct Hlist as (f & Ef & En).
    assert (Hself : forall w, In w (words 4 n) -> In w (words 4 n)) by auto.
    split; [|split; [|split]].
    + intros Hn. unfold plot_su16_directions. rewrite EO. cbn [bind]. rewrite steps_missing by (auto; simpl; lia). reflexivity.
    + intros Hn. assert (E : su8_data n us obs = Err KeyError).
      { unfold su8_data. rewrite EO. cbn [bind]. rewrite steps_missing by (auto; simpl; lia). reflexivity. }
      unfold plot_su8_directions, plot_su8_directions_individually. rewrite E. split; reflexivity.
    + intros Hn. unfold plot_su16_directions. rewrite EO. cbn [bind].
      rewrite XXXX_word, steps_word by (apply words4; split; [simpl; lia|repeat constructor]).
      cbn [bind]. rewrite Ef. cbn [bind]. rewrite En, map_length, zeros_table, accumulate_all by auto. cbn [bind].
      rewrite curves_table by reflexivity. eexists. split; [reflexivity|]. apply figure_of. reflexivity.
    + intros Hn.
      assert (E : su8_data n us obs = Ok (table us 2 (fun i U => (0 + part (word_direction n H) (words 4 n) i U)%R),
        map (fun w => (word_name w, map (fun U => word_direction n H U w) us)) (filter (fun w => Nat.eqb (count_occ Nat.eq_dec w 0) 1) (words 4 n)),
        map (fun w => (word_name w, map (fun U => word_direction n H U w) us)) (filter (fun w => Nat.eqb (count_occ Nat.eq_dec w 0) 0) (words 4 n)))).
      { unfold su8_data. rewrite EO. cbn [bind].
        rewrite XX_word, steps_word by (apply words4; split; [simpl; lia|repeat constructor]).
        cbn [bind]. rewrite Ef. cbn [bind]. rewrite En, map_length, zeros_table, accumulate_all by auto. cbn [bind].
        rewrite !named_all by auto. reflexivity. }
      eexists _, _, _. split; [apply (figure_words n 1 H us)|]. split; [apply (figure_words n 0 H us)|].
      split; [apply (figure_of n H us 2); reflexivity|].
      unfold plot_su8_directions, plot_su8_directions_individually. rewrite E. cbn [bind]. split; [reflexivity|].
      rewrite curves_table by reflexivity. reflexivity.
  - intros Hh U _ HU. apply (sums_stationary n U obs Fs); auto.
Qed.
Print Assumptions C88_direction_plots_partial.

Lemma Z_fits n : 0 < n -> Forall (fits n) [mkqop (K := C) lit_Z [0]] /\ Forall hermitian_obs [mkqop (K := C) lit_Z [0]].
Proof.
  intros Hn. split.
  - constructor; [|constructor]. split; [discriminate|]. split; [repeat constructor; simpl; tauto|]. split; [repeat constructor; exact Hn|]. split; reflexivity.
  - repeat constructor; intros i j Hi Hj; simpl in Hi, Hj; (destruct i as [|[|i]]; [| |lia]); (destruct j as [|[|j]]; [| |lia]);
      unfold madj; simpl; apply C_ext; simpl; ring.
Qed.

(** a rotation of the first of two qubits that takes |0> to 4/5 |0> + 3/5 |1> *)
Definition tilted : mat C := fun i j =>
  if Nat.eqb (i mod 2) (j mod 2) then
    match i / 2, j / 2 with
    | 0, 0 | 1, 1 => RtoC (4 / 5) | 0, 1 => RtoC (- (3 / 5)) | 1, 0 => RtoC (3 / 5) | _, _ => RtoC 0
    end
  else RtoC 0.

Lemma tilted_unitary : unitary (2 ^ 2) tilted.
Proof.
  intros i j Hi Hj. simpl in Hi, Hj. do 4 (destruct i as [|i]; [do 4 (destruct j as [|j];
    [unfold mmul, madj, mid, tilted, lsum; simpl; apply C_ext; simpl; field|]); lia|]); lia.
Qed.

Example C88_case : Forall (fits 4) [mkqop (K := C) lit_Z [0]] /\ Forall (fits 3) [mkqop (K := C) lit_Z [0]] /\
  Forall hermitian_obs [mkqop (K := C) lit_Z [0]] /\ unitary (2 ^ 2) tilted /\
  exists cs, plot_su8_directions_individually 2 [mid; tilted] [mkqop (K := C) lit_Z [0]] = Ok cs /\
    In ("YI"%string, [0%R; (12 / 25)%R]) cs.
Proof.
  split; [apply Z_fits; lia|]. split; [apply Z_fits; lia|]. split; [apply (Z_fits 1); lia|]. split; [exact tilted_unitary|].
  destruct (C88_direction_plots_partial 2 [mid; tilted] [mkqop (K := C) lit_Z [0]] (proj1 (Z_fits 2 ltac:(lia)))) as (Fs & EF & _ & Hn & _).
  destruct (Hn ltac:(discriminate) 2) as (_ & _ & _ & H2). destruct (H2 eq_refl) as (one & none & cs & [_ H1] & _ & _ & E & _).
  exists (one ++ none). split; [exact E|]. apply in_or_app. left. apply H1. exists [2; 0].
  split; [split; [reflexivity|split; [repeat constructor|reflexivity]]|]. split; [reflexivity|].
  assert (EH : forall i j, i < 4 -> j < 4 -> msum a_ent Fs i j = if Nat.eqb i j then (if Nat.ltb i 2 then RtoC 1 else RtoC (-1)) else RtoC 0).
  { cbn in EF. injection EF as <-. intros i j Hi Hj.
    do 4 (destruct i as [|i]; [do 4 (destruct j as [|j]; [cbv -[Rplus Rmult Ropp Rminus IZR]; apply C_ext; simpl; ring|]); lia|]); lia. }
  set (Hc := fun i j : nat => if Nat.eqb i j then (if Nat.ltb i 2 then RtoC 1 else RtoC (-1)) else RtoC 0).
  assert (EW : forall U, word_direction 2 (msum a_ent Fs) U [2; 0] = word_direction 2 Hc U [2; 0]).
  { intros U. change ((Im (quad (2 ^ 2) (qnode_state U) (msub (mmul (2 ^ 2) (pword [2; 0]%nat) (msum a_ent Fs)) (mmul (2 ^ 2) (msum a_ent Fs) (pword [2; 0]%nat)))) / 2 ^ 2)%R
      = (Im (quad (2 ^ 2) (qnode_state U) (msub (mmul (2 ^ 2) (pword [2; 0]%nat) Hc) (mmul (2 ^ 2) Hc (pword [2; 0]%nat)))) / 2 ^ 2)%R).
    f_equal. f_equal. apply quad_comm_ext; [reflexivity|]. intros i j Hi Hj. apply EH; auto. }
  cbn [map]. rewrite !EW. clear.
  assert (E1 : word_direction 2 Hc mid [2; 0] = 0%R).
  { unfold word_direction, Hc. cbv -[Rplus Rmult Ropp Rminus Rinv Rdiv IZR pow]. field. }
  assert (E2 : word_direction 2 Hc tilted [2; 0] = (12 / 25)%R).
  { unfold word_direction, Hc. cbv -[Rplus Rmult Ropp Rminus Rinv Rdiv IZR pow]. field. }
  rewrite E1, E2. split; [reflexivity|]. exists (12 / 25)%R. split; [right; left; reflexivity|]. rewrite Rabs_pos_eq; lra.
Qed.
