(** Properties C50 and C70: the su8 steps of ZassenhausLayer. *)
From Coq Require Import ZArith Arith Lia Bool String Ascii Sorted Permutation Reals Lra Ring Setoid Morphisms.
From Coquelicot Require Import Coquelicot.
From Verif Require Import Py StarRing Matrix GaussQ PauliSpec PauliModel PauliSem PauliProofs PauliProofs2 Cplx Bits PauliBasis Expm UtilsModel UtilsProofs
  CircuitModel CircuitProofs CircuitProofs2 AlgebraModel AlgebraProofs LayerModel LayerProofs LayerProofs2 GreedyModel RotoProofs GreedyProofs RotoWitness CommProofs.
From Verif Require Import PropAlgebra PropLayers PropGreedy.
From Coq Require Import List.
Import ListNotations.
Local Open Scope nat_scope.

(** ** Specification *)

(** the sites q1 and q2 have exactly s in common *)
Definition meets (q1 q2 : list nat) (s : nat) : Prop := forall x, In x q1 /\ In x q2 <-> x = s.
(** the word w on the sites q has the letter g on s *)
Definition letter_at (w q : list nat) (s g : nat) : Prop := exists i, nth_error q i = Some s /\ nth_error w i = Some g.
(** a word on increasing sites below n *)
Definition word_on (n : nat) (w q : list nat) : Prop := Forall (fun g => 1 <= g <= 3) w /\ qubit_tuple n (List.length w) q.
(** [A,B] = i c D *)
Definition commutator (n : nat) (A B : arr C) (c : R) (D : arr C) : Prop :=
  meq (2 ^ n) (msub (mmul (2 ^ n) (a_ent A) (a_ent B)) (mmul (2 ^ n) (a_ent B) (a_ent A))) (mscale (Cmult Ci (RtoC c)) (a_ent D)).

(** ** Words *)
Lemma word_place n w q P : word_on n w q -> word_operator n (word_name w) q P -> meq (2 ^ n) (a_ent P) (pword (place n q w)).
Proof.
  intros (Hw & Hl & Hs & Hlt) HP. apply (HP w (place n q w)); [reflexivity|exact Hw|apply place_length| |].
  - intros i Hi. rewrite nth_place by (rewrite Forall_forall in Hlt; apply Hlt, nth_In; lia).
    rewrite index_of_nth by (try lia; apply ss_lt_nodup; auto). reflexivity.
  - intros p Hp Hn. rewrite nth_place by auto. destruct (index_of p q) eqn:E; [|reflexivity].
    apply index_of_Some, nth_error_In in E. contradiction.
Qed.

Lemma meets_index w1 q1 w2 q2 s g h : meets q1 q2 s -> letter_at w1 q1 s g -> letter_at w2 q2 s h ->
  exists i j, i < List.length q1 /\ j < List.length q2 /\ nth i q1 0 = s /\ nth i q1 0 = nth j q2 0 /\ nth i w1 0 = g /\ nth j w2 0 = h /\
    (forall x, In x q1 -> In x q2 -> x = nth i q1 0).
Proof.
  intros Hm (i & Ei & Eg) (j & Ej & Eh). exists i, j.
  assert (E1 : nth i q1 0 = s) by (apply nth_error_nth; auto). assert (E2 : nth j q2 0 = s) by (apply nth_error_nth; auto).
  split; [apply nth_error_Some; congruence|]. split; [apply nth_error_Some; congruence|]. rewrite E1, E2.
  split; [reflexivity|]. split; [reflexivity|]. split; [apply nth_error_nth; auto|]. split; [apply nth_error_nth; auto|].
  intros x H1 H2. apply Hm. auto.
Qed.

(** the key computed for the words w1 on q1 and w2 on q2 *)
Definition ab_key (w1 q1 w2 q2 : list nat) : key := (word_name (map p_gamma (prod_ps w1 q1 w2 q2)), sites (prod_ps w1 q1 w2 q2)).

Lemma ab_spec n ord w1 q1 w2 q2 s g h : reorders ord -> word_on n w1 q1 -> word_on n w2 q2 -> meets q1 q2 s ->
  letter_at w1 q1 s g -> letter_at w2 q2 s h ->
  exists mA mB m, key_mono (word_name w1, q1) = Ok mA /\ key_mono (word_name w2, q2) = Ok mB /\
    mono_commutator ord mA mB = Ok m /\ mono_key m = Ok (ab_key w1 q1 w2 q2) /\
    str_in "I" (chars (fst (ab_key w1 q1 w2 q2))) = Nat.eqb g h /\
    (g <> h -> exists w, fst (ab_key w1 q1 w2 q2) = word_name w /\ word_on n w (snd (ab_key w1 q1 w2 q2)) /\
       List.length w = List.length w1 + List.length w2 - 1 /\
       (imag_coeff m = 2%R \/ imag_coeff m = (-2)%R) /\
       forall PA PB PD, word_operator n (word_name w1) q1 PA -> word_operator n (word_name w2) q2 PB ->
         word_operator n (word_name w) (snd (ab_key w1 q1 w2 q2)) PD -> commutator n PA PB (imag_coeff m) PD).
Proof.
  intros Ho W1 W2 Hm L1 L2. pose proof W1 as (Hw1 & Hl1 & Hs1 & Hb1). pose proof W2 as (Hw2 & Hl2 & Hs2 & Hb2).
  destruct (meets_index w1 q1 w2 q2 s g h Hm L1 L2) as (i & j & Hi & Hj & Es & Hij & Eg & Eh & Hone).
  destruct (comm_words ord w1 q1 w2 q2 i j Ho Hw1 Hw2 Hl1 Hl2 Hs1 Hs2 Hi Hj Hij Hone) as (E1 & E2 & E3 & E4 & E5 & E6).
  rewrite Eg, Eh in *. eexists _, _, _. split; [apply key_mono_ok; auto|]. split; [apply key_mono_ok; auto|].
  split; [exact E1|]. split; [exact E2|]. split; [exact E3|]. intros Hn. specialize (E6 Hn).
  assert (Hg : 1 <= g <= 3) by (rewrite <- Eg; rewrite Forall_forall in Hw1; apply Hw1, nth_In; lia).
  assert (Hh : 1 <= h <= 3) by (rewrite <- Eh; rewrite Forall_forall in Hw2; apply Hw2, nth_In; lia).
  assert (Elen : List.length (sites (prod_ps w1 q1 w2 q2)) = List.length w1 + List.length w2 - 1).
  { rewrite (Permutation_length E5), app_length.
    assert (N2 : NoDup q2) by (apply ss_lt_nodup; auto).
    assert (Hin : In (nth i q1 0) q2) by (rewrite Hij; apply nth_In; auto).
    assert (Hr : S (List.length (remove Nat.eq_dec (nth i q1 0) q2)) = List.length q2).
    { clear - N2 Hin. revert Hin. generalize (nth i q1 0) as x. intros x Hin. induction N2 as [|y l Hy Hn IH]; [destruct Hin|].
      simpl. destruct (Nat.eq_dec x y) as [->|Hne].
      - rewrite notin_remove by auto. reflexivity.
      - destruct Hin as [E|Hin]; [congruence|]. simpl. rewrite IH by auto. reflexivity. }
    lia. }
  destruct (comm_sign (prod_ps w1 q1 w2 q2) g h Hg Hh Hn) as [S1 S2].
  exists (map p_gamma (prod_ps w1 q1 w2 q2)). split; [reflexivity|].
  assert (Won : word_on n (map p_gamma (prod_ps w1 q1 w2 q2)) (sites (prod_ps w1 q1 w2 q2))).
  { split; [exact E6|]. split; [unfold sites; rewrite !map_length; reflexivity|]. split; [exact E4|].
    apply Forall_forall. intros x Hx. apply (Permutation_in _ E5), in_app_or in Hx. rewrite Forall_forall in Hb1, Hb2.
    destruct Hx as [Hx|Hx]; [auto|]. apply in_remove in Hx. apply Hb2. tauto. }
  split; [exact Won|]. split; [rewrite <- Elen; unfold sites; rewrite !map_length; reflexivity|]. split; [exact S1|].
  intros PA PB PD HA HB HD. unfold commutator. rewrite (word_place n w1 q1 PA W1 HA), (word_place n w2 q2 PB W2 HB), (word_place n _ _ PD Won HD).
  rewrite (comm_operator n w1 q1 w2 q2 i j) by auto. rewrite Eg, Eh, S2. reflexivity.
Qed.

(** ** C50: the keys. [g] and [h] are the letters of the two words on the common site. *)
Theorem C50_commutator_keys : forall n ord w1 q1 w2 q2 s g h, reorders ord -> word_on n w1 q1 -> word_on n w2 q2 -> meets q1 q2 s ->
  letter_at w1 q1 s g -> letter_at w2 q2 s h ->
  exists mA mB m d q, key_mono (word_name w1, q1) = Ok mA /\ key_mono (word_name w2, q2) = Ok mB /\
    mono_commutator ord mA mB = Ok m /\ mono_key m = Ok (d, q) /\
    (str_in "I" (chars d) = true <-> g = h) /\
    (g <> h -> exists w, d = word_name w /\ word_on n w q /\ List.length w = List.length w1 + List.length w2 - 1 /\
       (imag_coeff m = 2%R \/ imag_coeff m = (-2)%R) /\
       forall PA PB PD, word_operator n (word_name w1) q1 PA -> word_operator n (word_name w2) q2 PB ->
         word_operator n d q PD -> commutator n PA PB (imag_coeff m) PD).
Proof.
  intros n ord w1 q1 w2 q2 s g h Ho W1 W2 Hm L1 L2.
  destruct (ab_spec n ord w1 q1 w2 q2 s g h Ho W1 W2 Hm L1 L2) as (mA & mB & m & E1 & E2 & E3 & E4 & E5 & E6).
  exists mA, mB, m, (fst (ab_key w1 q1 w2 q2)), (snd (ab_key w1 q1 w2 q2)). split; [exact E1|]. split; [exact E2|]. split; [exact E3|].
  split; [exact E4|]. split; [rewrite E5; apply Nat.eqb_eq|]. intros Hn. destruct (E6 Hn) as (w & Ew & H1 & H2 & H3 & H4).
  exists w. rewrite <- Ew in H4. auto.
Qed.
Print Assumptions C50_commutator_keys.

Example C50_case : reorders (@rev nat) /\ word_on 4 [1; 3] [0; 2] /\ word_on 4 [1; 2] [2; 3] /\ meets [0; 2] [2; 3] 2 /\
  letter_at [1; 3] [0; 2] 2 3 /\ letter_at [1; 2] [2; 3] 2 1.
Proof.
  split; [intros l; apply Permutation_sym, Permutation_rev|]. split; [repeat split; repeat constructor; lia|]. split; [repeat split; repeat constructor; lia|].
  split; [intros x; simpl; lia|]. split; [exists 1; auto|exists 0; auto].
Qed.

(** ** The words of a table *)
Lemma table_word n ks (t : list (key * arr C)) k P : complete_algebra (K := C) n ks t -> In (k, P) t ->
  exists w, fst k = word_name w /\ word_on n w (snd k) /\ In (List.length w) ks /\ word_operator n (fst k) (snd k) P.
Proof.
  intros (_ & H2 & H3) Hin. destruct k as [d q]. assert (Hk : In (d, q) (map fst t)) by (apply in_map_iff; exists (d, q, P); auto).
  apply H2 in Hk. destruct Hk as (w & -> & Hl & Hw & Hq). exists w. cbn [fst snd]. split; [reflexivity|]. split; [split; auto|]. split; [auto|].
  intros w' v Ew Hw' Hv Hi Ho. apply (H3 (word_name w) q P w' v Hin Ew Hw' Hv Hi Ho).
Qed.

Lemma table_has n ks (t : list (key * arr C)) w q : complete_algebra (K := C) n ks t -> word_on n w q -> In (List.length w) ks ->
  exists P, In ((word_name w, q), P) t /\ dget key_eqb t (word_name w, q) = Ok P /\ word_operator n (word_name w) q P.
Proof.
  intros Ht (Hw & Hq) Hl. pose proof Ht as (H1 & H2 & _).
  assert (Hk : In (word_name w, q) (map fst t)). { apply H2. exists w. auto. }
  apply in_map_iff in Hk. destruct Hk as ([k P] & E & Hin). cbn [fst] in E. subst k. exists P. split; [exact Hin|].
  split; [apply (dget_In key_eqb key_eqb_spec); auto|]. destruct (table_word n ks t _ P Ht Hin) as (_ & _ & _ & _ & H). exact H.
Qed.

Lemma table_not n ks (t : list (key * arr C)) w q : complete_algebra (K := C) n ks t -> word_on n w q -> ~ In (List.length w) ks ->
  dget key_eqb t (word_name w, q) = Err KeyError.
Proof.
  intros (H1 & H2 & _) (Hw & Hq) Hl. apply (dget_missing key_eqb key_eqb_spec). intros Hk. apply H2 in Hk.
  destruct Hk as (w' & E & Hl' & Hw' & _). apply Hl. replace w with w'; [exact Hl'|]. symmetry.
  apply word_name_inj; auto; eapply Forall_impl; try eassumption; simpl; intros; lia.
Qed.

(** ** Sharing one site *)
Lemma shared_one n wA A w k : fst A = word_name wA -> word_on n wA (snd A) -> fst k = word_name w -> word_on n w (snd k) ->
  Nat.eqb (shared_sites A k) 1 = true <-> exists s, meets (snd A) (snd k) s.
Proof.
  intros _ (_ & _ & _ & _) _ (_ & _ & Hs & _). unfold shared_sites. rewrite Nat.eqb_eq.
  assert (Hnd : NoDup (filter (fun q => mem q (snd A)) (snd k))) by (apply NoDup_filter, ss_lt_nodup; exact Hs).
  assert (Hin : forall x, In x (filter (fun q => mem q (snd A)) (snd k)) <-> In x (snd A) /\ In x (snd k)).
  { intros x. rewrite filter_In, mem_In. tauto. }
  destruct (filter (fun q => mem q (snd A)) (snd k)) as [|x [|y l]] eqn:E.
  - split; [discriminate|]. intros (s & Hm). assert (F : In s (snd A) /\ In s (snd k)) by (apply Hm; reflexivity). apply Hin in F. destruct F.
  - split; [|reflexivity]. intros _. exists x. intros z. rewrite <- Hin. simpl. split; [intros [->|[]]; auto|auto].
  - split; [discriminate|]. intros (s & Hm). exfalso. inversion Hnd as [|? ? Hx _]; subst. apply Hx. left.
    assert (Ex : x = s) by (apply Hm, Hin; left; auto). assert (Ey : y = s) by (apply Hm, Hin; right; left; auto). congruence.
Qed.

Lemma meets_letters n w1 q1 w2 q2 s : word_on n w1 q1 -> word_on n w2 q2 -> meets q1 q2 s ->
  exists g h, letter_at w1 q1 s g /\ letter_at w2 q2 s h.
Proof.
  intros (_ & L1 & _) (_ & L2 & _) Hm. destruct (proj2 (Hm s) eq_refl) as [H1 H2].
  apply In_nth_error in H1. destruct H1 as (i & Ei). apply In_nth_error in H2. destruct H2 as (j & Ej).
  exists (nth i w1 0), (nth j w2 0). split; [exists i|exists j]; (split; [auto|]); apply nth_error_nth'; rewrite <- ?L1, <- ?L2; apply nth_error_Some; congruence.
Qed.

(** ** Different partners give different keys *)
Definition letter_in (l : list pauli) (s : nat) : nat := match look l s with Some p => p_gamma p | None => 0 end.

Lemma letter_keys l s : letter_in l s = match index_of s (sites l) with Some k => nth k (map p_gamma l) 0 | None => 0 end.
Proof.
  unfold letter_in. induction l as [|p l IH]; [reflexivity|]. unfold sites, look in *. cbn [map index_of find].
  rewrite (Nat.eqb_sym s). destruct (Nat.eqb_spec (p_alpha p) s); [reflexivity|]. rewrite IH. destruct (index_of s (map p_alpha l)); reflexivity.
Qed.

Lemma letter_prod w1 q1 w2 q2 s : List.length q1 = List.length w1 -> List.length q2 = List.length w2 ->
  letter_in (prod_ps w1 q1 w2 q2) s = gidx (letter_in (wp w1 q1) s) (letter_in (wp w2 q2) s).
Proof.
  intros H1 H2. unfold letter_in. change (prod_ps w1 q1 w2 q2) with (prod_paulis (mk_mono (wp w1 q1)) (mk_mono (wp w2 q2))).
  rewrite look_prod. cbn [m_paulis mk_mono]. unfold combine_at. rewrite !look_wp by auto.
  destruct (index_of s q1) as [a|], (index_of s q2) as [b|]; cbn [p_gamma wpauli fst pm]; auto.
  destruct (nth a w1 0) as [|[|[|[|?]]]]; reflexivity.
Qed.

Lemma gidx_cancel g h k : g <= 3 -> h <= 3 -> k <= 3 -> gidx g h = gidx g k -> h = k.
Proof.
  intros Hg Hh Hk. destruct g as [|[|[|[|g]]]]; try lia; destruct h as [|[|[|[|h]]]]; try lia; destruct k as [|[|[|[|k]]]]; try lia; simpl; lia.
Qed.

Lemma letter_in_le l s : Forall valid l -> letter_in l s <= 3.
Proof. intros H. unfold letter_in. destruct (look l s) eqn:E; [apply (look_valid l s p H E)|lia]. Qed.

Lemma look_letter n w q s : word_on n w q ->
  look (wp w q) s = if Nat.eqb (letter_in (wp w q) s) 0 then None else Some (wpauli (letter_in (wp w q) s, s)).
Proof.
  intros (Hw & Hl & _). unfold letter_in. rewrite look_wp by auto. destruct (index_of s q) as [i|] eqn:E; [|reflexivity].
  cbn [wpauli p_gamma fst]. assert (1 <= nth i w 0 <= 3).
  { rewrite Forall_forall in Hw. apply Hw, nth_In. rewrite <- Hl. apply index_of_Some in E. apply nth_error_Some. congruence. }
  destruct (Nat.eqb_spec (nth i w 0) 0); [lia|reflexivity].
Qed.

Lemma ab_inj n w1 q1 w2 q2 w3 q3 : word_on n w1 q1 -> word_on n w2 q2 -> word_on n w3 q3 ->
  ab_key w1 q1 w2 q2 = ab_key w1 q1 w3 q3 -> w2 = w3 /\ q2 = q3.
Proof.
  intros W1 W2 W3 E. pose proof W1 as (Hw1 & Hl1 & Hs1 & _). pose proof W2 as (Hw2 & Hl2 & Hs2 & _). pose proof W3 as (Hw3 & Hl3 & Hs3 & _).
  unfold ab_key in E. injection E as E1 E2.
  destruct (key_mono_ok w1 q1 Hw1 Hl1 Hs1) as [_ V1]. destruct (key_mono_ok w2 q2 Hw2 Hl2 Hs2) as [_ V2]. destruct (key_mono_ok w3 q3 Hw3 Hl3 Hs3) as [_ V3].
  pose proof (prod_wfc _ _ (proj1 V1) (proj1 V2)) as [(_ & _ & S12) _]. pose proof (prod_wfc _ _ (proj1 V1) (proj1 V3)) as [(_ & _ & S13) _].
  cbn [m_paulis mk_mono] in S12, S13.
  assert (Eg : map p_gamma (prod_ps w1 q1 w2 q2) = map p_gamma (prod_ps w1 q1 w3 q3)).
  { apply word_name_inj; [apply Forall_map; exact S12|apply Forall_map; exact S13|exact E1]. }
  assert (EL : forall s, letter_in (wp w2 q2) s = letter_in (wp w3 q3) s).
  { intros s. apply (gidx_cancel (letter_in (wp w1 q1) s)).
    - apply letter_in_le. apply V1.
    - apply letter_in_le. apply V2.
    - apply letter_in_le. apply V3.
    - rewrite <- !letter_prod by auto. rewrite !letter_keys, Eg, E2. reflexivity. }
  assert (Ek : forall s, look (wp w2 q2) s = look (wp w3 q3) s).
  { intros s. rewrite (look_letter n w2 q2), (look_letter n w3 q3), EL by auto. reflexivity. }
  assert (Ep : wp w2 q2 = wp w3 q3).
  { apply sorted_unique; [rewrite wp_sites; auto|rewrite wp_sites; auto|].
    assert (N2 : NoDup (sites (wp w2 q2))) by (rewrite wp_sites by auto; apply ss_lt_nodup; auto).
    assert (N3 : NoDup (sites (wp w3 q3))) by (rewrite wp_sites by auto; apply ss_lt_nodup; auto).
    apply NoDup_Permutation; [eapply NoDup_map_inv; exact N2|eapply NoDup_map_inv; exact N3|].
    intros p. split; intros H.
    - apply (look_in _ _ N2) in H. rewrite Ek in H. apply look_some in H. tauto.
    - apply (look_in _ _ N3) in H. rewrite <- Ek in H. apply look_some in H. tauto. }
  split.
  - assert (F : forall w q, List.length q = List.length w -> map p_gamma (wp w q) = w).
    { clear. induction w as [|g w IH]; intros [|s q] H; try discriminate; [reflexivity|]. unfold wp in *. cbn [combine map]. f_equal. apply IH. simpl in H. lia. }
    rewrite <- (F w2 q2), <- (F w3 q3), Ep by auto. reflexivity.
  - rewrite <- (wp_sites w2 q2), <- (wp_sites w3 q3), Ep by auto. reflexivity.
Qed.

(** ** The candidate loop *)
Lemma dset_In {B} (d : list (key * B)) k v k' v' : In (k', v') (dset key_eqb d k v) -> (k' = k /\ v' = v) \/ In (k', v') d.
Proof.
  induction d as [|[a b] d IH]; cbn [dset]; [intros [E|[]]; injection E as <- <-; auto|].
  destruct (key_eqb a k) eqn:Ek; intros [E|H].
  - injection E as <- <-. apply key_eqb_spec in Ek. auto.
  - right; right; auto.
  - injection E as <- <-. right; left; auto.
  - destruct (IH H) as [G|G]; [auto|right; right; auto].
Qed.

Lemma dset_keeps {B} (d : list (key * B)) k v k' v' : In (k', v') d -> k' <> k \/ v' = v -> In (k', v') (dset key_eqb d k v).
Proof.
  intros Hin Hc. induction d as [|[a b] d IH]; [destruct Hin|]. cbn [dset]. destruct (key_eqb a k) eqn:Ek; destruct Hin as [E|H].
  - injection E as -> ->. apply key_eqb_spec in Ek. subst k'. destruct Hc as [Hc| ->]; [congruence|left; auto].
  - right; auto.
  - left; auto.
  - right; auto.
Qed.

Lemma dset_has {B} (d : list (key * B)) k v : In (k, v) (dset key_eqb d k v).
Proof.
  induction d as [|[a b] d IH]; cbn [dset]; [left; auto|]. destruct (key_eqb a k) eqn:Ek; [|right; auto].
  apply key_eqb_spec in Ek. subst a. left; auto.
Qed.

Lemma dset_NoDup {B} (d : list (key * B)) k v : NoDup (map fst d) -> NoDup (map fst (dset key_eqb d k v)).
Proof.
  induction d as [|[a b] d IH]; cbn [dset map]; intros H; [repeat constructor; auto|]. inversion H as [|? ? Ha Hd]; subst.
  destruct (key_eqb a k) eqn:Ek; cbn [map fst]; constructor; auto.
  intros Hin. apply in_map_iff in Hin. destruct Hin as ([x y] & E & Hin). cbn [fst] in *. subst x. apply dset_In in Hin.
  destruct Hin as [[-> _]|Hin].
  - assert (key_eqb k k = true) by (apply key_eqb_spec; auto). congruence.
  - apply Ha. apply in_map_iff. exists (a, y). auto.
Qed.

Section Loop.
Variables (n : nat) (ord : list nat -> list nat) (phi : nat -> C) (Os : list (arr C)) (t4 t8 : list (key * arr C)) (ks4 ks8 : list nat).
Variables (wA qA : list nat).
Hypothesis (Ho : reorders ord) (H4 : complete_algebra (K := C) n ks4 t4) (H8 : complete_algebra (K := C) n ks8 t8) (HA : word_on n wA qA).
Let A : key := (word_name wA, qA).

Lemma cand_cases (k : key) (P : arr C) : In (k, P) t4 -> exists w, fst k = word_name w /\ word_on n w (snd k) /\ In (List.length w) ks4 /\
  (((forall s, ~ meets qA (snd k) s) /\ forall c, cand_step ord n phi Os t4 t8 A c (k, P) = Ok c) \/
   (exists s g, meets qA (snd k) s /\ letter_at wA qA s g /\ letter_at w (snd k) s g /\ forall c, cand_step ord n phi Os t4 t8 A c (k, P) = Ok c) \/
   (exists s g h w' sg, meets qA (snd k) s /\ letter_at wA qA s g /\ letter_at w (snd k) s h /\ g <> h /\
      fst (ab_key wA qA w (snd k)) = word_name w' /\ word_on n w' (snd (ab_key wA qA w (snd k))) /\
      List.length w' = List.length wA + List.length w - 1 /\ (sg = 2%R \/ sg = (-2)%R) /\
      (In (List.length w') ks8 -> exists PD, In (ab_key wA qA w (snd k), PD) t8 /\
         (forall PA, word_operator n (word_name wA) qA PA -> commutator n PA P sg PD) /\
         forall c, cand_step ord n phi Os t4 t8 A c (k, P) =
           Ok (mkcands (dset key_eqb (cd_su8 c) (ab_key wA qA w (snd k)) (Rabs (gradient n phi Os (a_ent PD)), k, sg))
                       (dset key_eqb (cd_su4 c) k (gradient n phi Os (a_ent P))))) /\
      (~ In (List.length w') ks8 -> forall c, cand_step ord n phi Os t4 t8 A c (k, P) = Err KeyError))).
Proof.
  intros Hin. destruct (table_word n ks4 t4 k P H4 Hin) as (w & Ew & Wk & Hl & HP). exists w. split; [exact Ew|]. split; [exact Wk|]. split; [exact Hl|].
  pose proof (shared_one n wA A w k eq_refl HA Ew Wk) as Hsh. cbn [snd A] in Hsh.
  destruct (Nat.eqb (shared_sites A k) 1) eqn:Es.
  2: { left. split.
       - intros s Hs. assert (false = true) by (apply Hsh; exists s; exact Hs). discriminate.
       - intros c. unfold cand_step. cbn [fst]. rewrite Es. reflexivity. }
  right. destruct (proj1 Hsh eq_refl) as (s & Hm). destruct (meets_letters n wA qA w (snd k) s HA Wk Hm) as (g & h & LA & LB).
  destruct (ab_spec n ord wA qA w (snd k) s g h Ho HA Wk Hm LA LB) as (mA & mB & m & E1 & E2 & E3 & E4 & E5 & E6).
  assert (Ek : k = (word_name w, snd k)) by (destruct k; cbn [fst snd] in *; congruence).
  assert (St : forall c, cand_step ord n phi Os t4 t8 A c (k, P) =
    if Nat.eqb g h then Ok c else
      do P8 <- dget key_eqb t8 (ab_key wA qA w (snd k));
      do P4 <- dget key_eqb t4 k;
      Ok (mkcands (dset key_eqb (cd_su8 c) (ab_key wA qA w (snd k)) (Rabs (gradient n phi Os (a_ent P8)), k, imag_coeff m))
                  (dset key_eqb (cd_su4 c) k (gradient n phi Os (a_ent P4))))).
  { intros c. unfold cand_step. cbn [fst]. rewrite Es. cbn [negb]. unfold A at 1. rewrite E1. cbn [bind].
    rewrite Ek at 1. rewrite E2. cbn [bind]. rewrite E3. cbn [bind]. rewrite E4. cbn [bind]. rewrite E5. reflexivity. }
  destruct (Nat.eqb_spec g h) as [<-|Hn].
  - left. exists s, g. auto.
  - right. destruct (E6 Hn) as (w' & Ew' & Ww' & Hl' & Hsg & Hc). exists s, g, h, w', (imag_coeff m).
    split; [exact Hm|]. split; [exact LA|]. split; [exact LB|]. split; [exact Hn|]. split; [exact Ew'|]. split; [exact Ww'|]. split; [exact Hl'|].
    split; [exact Hsg|].
    assert (Eab : ab_key wA qA w (snd k) = (word_name w', snd (ab_key wA qA w (snd k)))) by (rewrite <- Ew'; reflexivity). split.
    + intros Hi. destruct (table_has n ks8 t8 w' (snd (ab_key wA qA w (snd k))) H8 Ww' Hi) as (PD & I1 & I2 & I3). rewrite <- Eab in I1, I2.
      exists PD. split; [exact I1|]. split.
      * intros PA HPA. apply Hc; [exact HPA|rewrite <- Ew; exact HP|exact I3].
      * intros c. rewrite St, I2. cbn [bind]. destruct H4 as (N4 & _ & _).
        rewrite (dget_In key_eqb key_eqb_spec t4 k P N4 Hin). reflexivity.
    + intros Hi c. rewrite St, Eab. rewrite (table_not n ks8 t8 w' _ H8 Ww' Hi). reflexivity.
Qed.

(** what an entry of omegas_su8 says *)
Definition sound_entry (c4 : list (key * R)) (AB : key) (v : R) (B : key) (sg : R) : Prop :=
  exists wB w P PD, fst B = word_name wB /\ word_on n wB (snd B) /\ In (List.length wB) ks4 /\ In (B, P) t4 /\
    AB = ab_key wA qA wB (snd B) /\
    fst AB = word_name w /\ word_on n w (snd AB) /\ List.length w = List.length wA + List.length wB - 1 /\ In (AB, PD) t8 /\
    v = Rabs (gradient n phi Os (a_ent PD)) /\ (sg = 2%R \/ sg = (-2)%R) /\
    (forall PA, word_operator n (word_name wA) qA PA -> commutator n PA P sg PD) /\
    In (B, gradient n phi Os (a_ent P)) c4 /\ (exists s, meets qA (snd B) s).

Definition loop_inv (c : cands) : Prop :=
  NoDup (map fst (cd_su8 c)) /\ NoDup (map fst (cd_su4 c)) /\
  (forall AB v B sg, In (AB, (v, B, sg)) (cd_su8 c) -> sound_entry (cd_su4 c) AB v B sg) /\
  (forall B x, In (B, x) (cd_su4 c) -> exists P, In (B, P) t4 /\ x = gradient n phi Os (a_ent P)).

Definition present (B : key) (c : cands) : Prop := exists AB v sg, In (AB, (v, B, sg)) (cd_su8 c).

Lemma loop_ok l : incl l t4 ->
  (forall wB : list nat, In (List.length wB) ks4 -> In (List.length wA + List.length wB - 1) ks8) ->
  forall c, loop_inv c -> exists c', foldM (cand_step ord n phi Os t4 t8 A) l c = Ok c' /\ loop_inv c' /\
    (forall B, present B c -> present B c') /\
    (forall B P wB s g h, In (B, P) l -> fst B = word_name wB -> word_on n wB (snd B) -> meets qA (snd B) s ->
       letter_at wA qA s g -> letter_at wB (snd B) s h -> g <> h -> present B c').
Proof.
  intros Hincl Hlen. induction l as [|[k P] l IH]; intros c Hc.
  { exists c. split; [reflexivity|]. split; [exact Hc|]. split; [auto|]. intros ? ? ? ? ? ? []. }
  assert (Hin : In (k, P) t4) by (apply Hincl; left; auto).
  assert (IH' := IH (fun x Hx => Hincl x (or_intror Hx))). clear IH.
  assert (Uw : forall w1 w2, word_name w1 = word_name w2 -> Forall (fun g => 1 <= g <= 3) w1 -> Forall (fun g => 1 <= g <= 3) w2 -> w1 = w2).
  { intros w1 w2 E F1 F2. apply word_name_inj; auto; eapply Forall_impl; try eassumption; simpl; intros; lia. }
  assert (Ul : forall w q s g h, NoDup q -> letter_at w q s g -> letter_at w q s h -> g = h).
  { intros w q s g h Hn (i & E1 & E2) (j & F1 & F2). assert (i = j); [|subst; congruence].
    rewrite NoDup_nth_error in Hn. apply Hn; [apply nth_error_Some; congruence|congruence]. }
  assert (Step : exists c1, cand_step ord n phi Os t4 t8 A c (k, P) = Ok c1 /\ loop_inv c1 /\ (forall B, present B c -> present B c1) /\
    (forall wB s g h, fst k = word_name wB -> word_on n wB (snd k) -> meets qA (snd k) s ->
       letter_at wA qA s g -> letter_at wB (snd k) s h -> g <> h -> present k c1)).
  { assert (NqA : NoDup qA) by (apply ss_lt_nodup, HA).
    destruct (cand_cases k P Hin) as (w & Ew & Wk & Hl & [(H1 & H2)|[(s & g & H1 & H2 & H3 & H5)|(s & g & h & w' & sg & H1 & H2 & H3 & Hn & H5 & H6 & H7 & H9 & H10 & _)]]).
    - exists c. split; [apply H2|]. split; [exact Hc|]. split; [auto|]. intros wB s g h _ _ Hm. exfalso. exact (H1 s Hm).
    - exists c. split; [apply H5|]. split; [exact Hc|]. split; [auto|]. intros wB s' g' h' EB WB Hm L1 L2 Hn. exfalso. apply Hn.
      assert (wB = w) by (apply Uw; [congruence|apply WB|apply Wk]). subst wB.
      assert (s' = s) by (apply H1, Hm; reflexivity). subst s'.
      rewrite (Ul wA qA s g' g NqA L1 H2). apply (Ul w (snd k) s g h'); auto. apply ss_lt_nodup, Wk.
    - destruct (H10 ltac:(rewrite H7; apply Hlen; exact Hl)) as (PD & I1 & I2 & I3). eexists. split; [apply I3|].
      destruct Hc as (C1 & C2 & C3 & C4).
      assert (K4 : forall B x, In (B, x) (cd_su4 c) -> In (B, x) (dset key_eqb (cd_su4 c) k (gradient n phi Os (a_ent P)))).
      { intros B x Hx. apply dset_keeps; [exact Hx|]. destruct (C4 B x Hx) as (P' & HP' & ->).
        destruct (key_eqb B k) eqn:Ek; [|left; intros ->; assert (key_eqb k k = true) by (apply key_eqb_spec; auto); congruence].
        apply key_eqb_spec in Ek. subst B. right. destruct H4 as (N4 & _ & _).
        pose proof (dget_In key_eqb key_eqb_spec t4 k P N4 Hin) as G1. pose proof (dget_In key_eqb key_eqb_spec t4 k P' N4 HP') as G2. congruence. }
      split; [|split].
      + split; [apply dset_NoDup; auto|]. split; [apply dset_NoDup; auto|]. cbn [cd_su8 cd_su4]. split.
        * intros AB v B sg' Hx. apply dset_In in Hx. destruct Hx as [[-> E]|Hx].
          -- injection E as -> -> ->. exists w, w', P, PD. repeat (split; [first [assumption|reflexivity]|]). split; [apply dset_has|exists s; exact H1].
          -- destruct (C3 AB v B sg' Hx) as (wB & w2 & P2 & PD2 & D1 & D2 & D3 & D4 & D5 & D6 & D7 & D8 & D9 & D10 & D11 & D12 & D13 & D14).
             exists wB, w2, P2, PD2. repeat (split; [assumption|]). split; [apply K4; exact D13|exact D14].
        * intros B x Hx. apply dset_In in Hx. destruct Hx as [[-> ->]|Hx]; [exists P; auto|apply C4; exact Hx].
      + intros B (AB & v & sg' & Hx). cbn [cd_su8].
        destruct (key_eqb AB (ab_key wA qA w (snd k))) eqn:Ek.
        * apply key_eqb_spec in Ek. destruct (C3 AB v B sg' Hx) as (wB & _ & P2 & _ & D1 & D2 & D3 & D4 & D5 & _).
          assert (EB : B = k).
          { rewrite D5 in Ek. destruct (ab_inj n wA qA wB (snd B) w (snd k) HA D2 Wk Ek) as [-> Eq].
            destruct B as [dB qB], k as [dk qk]. cbn [fst snd] in *. congruence. }
          subst B. eexists _, _, _. apply dset_has.
        * exists AB, v, sg'. apply dset_keeps; [exact Hx|]. left. intros ->.
          assert (key_eqb (ab_key wA qA w (snd k)) (ab_key wA qA w (snd k)) = true) by (apply key_eqb_spec; auto). congruence.
      + intros _ _ _ _ _ _ _ _ _ _. eexists _, _, _. apply dset_has. }
  destruct Step as (c1 & E1 & I1 & Pr & New). destruct (IH' c1 I1) as (c' & E2 & I2 & Pr2 & New2).
  exists c'. cbn [foldM]. rewrite E1. cbn [bind]. split; [exact E2|]. split; [exact I2|]. split; [intros B HB; apply Pr2, Pr; exact HB|].
  intros B P' wB s g h Hx EB WB Hm L1 L2 Hn. destruct Hx as [E|Hx]; [|apply (New2 B P' wB s g h); auto].
  injection E as <- <-. apply Pr2. apply (New wB s g h); auto.
Qed.

(** the partners recorded so far *)
Definition partners (l : list (key * (R * key * R))) : list key := map (fun e => snd (fst (snd e))) l.

Lemma loop_order l : incl l t4 ->
  (forall wB : list nat, In (List.length wB) ks4 -> In (List.length wA + List.length wB - 1) ks8) ->
  forall c c', loop_inv c -> NoDup (partners (cd_su8 c) ++ map fst l) -> foldM (cand_step ord n phi Os t4 t8 A) l c = Ok c' ->
  exists f, partners (cd_su8 c') = partners (cd_su8 c) ++ filter f (map fst l).
Proof.
  intros Hincl Hlen. induction l as [|[k P] l IH]; intros c c' Hc Hn E.
  { cbn [foldM] in E. injection E as <-. exists (fun _ => true). simpl. rewrite app_nil_r. reflexivity. }
  assert (Hin : In (k, P) t4) by (apply Hincl; left; auto).
  assert (Hi' : incl l t4) by (intros y Hy; apply Hincl; right; auto).
  cbn [map fst] in Hn. cbn [foldM] in E.
  assert (Hk : ~ In k (partners (cd_su8 c) ++ map fst l)) by (apply NoDup_remove_2; exact Hn).
  assert (Hn' : NoDup (partners (cd_su8 c) ++ map fst l)) by (apply NoDup_remove_1 in Hn; exact Hn).
  assert (Hkl : ~ In k (map fst l)) by (intros G; apply Hk, in_or_app; auto).
  assert (Skip : foldM (cand_step ord n phi Os t4 t8 A) l c = Ok c' ->
    exists f, partners (cd_su8 c') = partners (cd_su8 c) ++ filter f (map (B := key) fst ((k, P) :: l))).
  { intros E'. destruct (IH Hi' c c' Hc Hn' E') as (f & Ef). exists (fun x => f x && negb (key_eqb x k)). rewrite Ef. f_equal. cbn [map fst filter].
    replace (key_eqb k k) with true by (symmetry; apply key_eqb_spec; auto). cbn [negb]. rewrite andb_false_r.
    apply filter_ext_in. intros x Hx. destruct (key_eqb x k) eqn:Ek; [|simpl; rewrite andb_true_r; auto].
    apply key_eqb_spec in Ek. subst x. contradiction. }
  assert (L1 := loop_ok [(k, P)] (fun x Hx => match Hx with or_introl e => eq_ind _ (fun y => In y t4) Hin _ e | or_intror f => False_ind _ f end) Hlen c Hc).
  destruct L1 as (c1 & F1 & Ic1 & _). cbn [foldM] in F1.
  destruct (cand_cases k P Hin) as (w & Ew & Wk & Hl & [(H1 & H2)|[(s & g & H1 & H2 & H3 & H5)|(s & g & h & w' & sg & H1 & H2 & H3 & Hne & H5 & H6 & H7 & H9 & H10 & _)]]).
  - apply Skip. rewrite H2 in E. exact E.
  - apply Skip. rewrite H5 in E. exact E.
  - destruct (H10 ltac:(rewrite H7; apply Hlen; exact Hl)) as (PD & I1 & I2 & I3). rewrite I3 in E, F1. cbn [bind] in E, F1.
    injection F1 as F1.
    assert (Hnew : ~ In (ab_key wA qA w (snd k)) (map fst (cd_su8 c))).
    { intros Hx. apply in_map_iff in Hx. destruct Hx as ([AB [[v B] sg']] & Ea & Hx). cbn [fst] in Ea. subst AB.
      destruct Hc as (C1 & C2 & C3 & C4). destruct (C3 _ v B sg' Hx) as (wB & _ & P2 & _ & D1 & D2 & D3 & D4 & D5 & _).
      destruct (ab_inj n wA qA w (snd k) wB (snd B) HA Wk D2 D5) as [-> Eq].
      apply Hk, in_or_app. left. apply in_map_iff. eexists. split; [|exact Hx]. cbn [fst snd].
      destruct B as [dB qB], k as [dk qk]. cbn [fst snd] in *. congruence. }
    assert (Ed : partners (cd_su8 c1) = partners (cd_su8 c) ++ [k]).
    { rewrite <- F1. cbn [cd_su8]. rewrite (dset_new key_eqb key_eqb_spec) by exact Hnew. unfold partners. rewrite map_app. reflexivity. }
    rewrite F1 in E. destruct (IH Hi' c1 c' Ic1) as (f & Ef); [rewrite Ed, <- app_assoc; exact Hn|exact E|].
    exists (fun x => f x || key_eqb x k). rewrite Ef, Ed, <- app_assoc. f_equal. cbn [map fst filter].
    replace (key_eqb k k) with true by (symmetry; apply key_eqb_spec; auto). rewrite orb_true_r. simpl. f_equal.
    apply filter_ext_in. intros x Hx. destruct (key_eqb x k) eqn:Ek; [|rewrite orb_false_r; auto].
    apply key_eqb_spec in Ek. subst x. contradiction.
Qed.

Lemma pick_ok c4 l : NoDup (map fst c4) -> (forall AB v B sg, In (AB, (v, B, sg)) l -> sound_entry c4 AB v B sg) ->
  exists r, pick_cand c4 l = Ok r /\
    match r with
    | Some (AB, B) => exists l1 v sg l2, l = l1 ++ (AB, (v, B, sg)) :: l2 /\ (/ 1000 < v)%R /\ (forall P, In (B, P) t4 -> gradient n phi Os (a_ent P) <> 0%R) /\
        forall AB v B sg, In (AB, (v, B, sg)) l1 -> (v <= / 1000)%R \/ forall P, In (B, P) t4 -> gradient n phi Os (a_ent P) = 0%R
    | None => forall AB v B sg, In (AB, (v, B, sg)) l -> (v <= / 1000)%R \/ forall P, In (B, P) t4 -> gradient n phi Os (a_ent P) = 0%R
    end.
Proof.
  intros N4 Hs. induction l as [|[AB [[v B] sg]] l IH]; [exists None; split; [reflexivity|intros ? ? ? ? []]|].
  destruct (Hs AB v B sg (or_introl eq_refl)) as (wB & w & P & PD & D1 & D2 & D3 & D4 & D5 & D6 & D7 & D8 & D9 & D10 & D11 & D12 & D13 & D14).
  destruct IH as (r & Er & Hr); [intros; apply Hs; right; auto|].
  assert (Hv : Rabs v = v). { rewrite D10. apply Rabs_Rabsolu. }
  assert (UP : forall P', In (B, P') t4 -> P' = P).
  { intros P' H'. pose proof H4 as (N & _ & _). pose proof (dget_In key_eqb key_eqb_spec t4 B P N D4) as G1. pose proof (dget_In key_eqb key_eqb_spec t4 B P' N H') as G2. congruence. }
  assert (Skip : (v <= / 1000)%R \/ (forall P, In (B, P) t4 -> gradient n phi Os (a_ent P) = 0%R) ->
    match r with
    | Some (AB, B) => exists l1 v sg l2, l = l1 ++ (AB, (v, B, sg)) :: l2 /\ (/ 1000 < v)%R /\ (forall P, In (B, P) t4 -> gradient n phi Os (a_ent P) <> 0%R) /\
        forall AB v B sg, In (AB, (v, B, sg)) l1 -> (v <= / 1000)%R \/ forall P, In (B, P) t4 -> gradient n phi Os (a_ent P) = 0%R
    | None => forall AB v B sg, In (AB, (v, B, sg)) l -> (v <= / 1000)%R \/ forall P, In (B, P) t4 -> gradient n phi Os (a_ent P) = 0%R
    end ->
    match r with
    | Some (AB1, B1) => exists l1 v1 sg1 l2, (AB, (v, B, sg)) :: l = l1 ++ (AB1, (v1, B1, sg1)) :: l2 /\ (/ 1000 < v1)%R /\ (forall P, In (B1, P) t4 -> gradient n phi Os (a_ent P) <> 0%R) /\
        forall AB v B sg, In (AB, (v, B, sg)) l1 -> (v <= / 1000)%R \/ forall P, In (B, P) t4 -> gradient n phi Os (a_ent P) = 0%R
    | None => forall AB1 v1 B1 sg1, In (AB1, (v1, B1, sg1)) ((AB, (v, B, sg)) :: l) -> (v1 <= / 1000)%R \/ forall P, In (B1, P) t4 -> gradient n phi Os (a_ent P) = 0%R
    end).
  { intros Hno Hr'. destruct r as [[AB' B']|].
    - destruct Hr' as (l1 & v' & sg' & l2 & -> & I2 & I3 & I4). exists ((AB, (v, B, sg)) :: l1), v', sg', l2. split; [reflexivity|]. split; [exact I2|]. split; [exact I3|].
      intros AB2 v2 B2 sg2 [E|Hx]; [|apply (I4 AB2 v2 B2 sg2 Hx)]. injection E as <- <- <- <-. exact Hno.
    - intros AB' v' B' sg' [E|Hx]; [|apply (Hr' AB' v' B' sg' Hx)]. injection E as <- <- <- <-. exact Hno. }
  cbn [pick_cand]. rewrite (dget_In key_eqb key_eqb_spec c4 B _ N4 D13). cbn [bind]. rewrite Hv.
  destruct (Rlt_dec (/ 1000) v) as [L|L]; [destruct (Rlt_dec 0 (Rabs (gradient n phi Os (a_ent P)))) as [G|G]|].
  - exists (Some (AB, B)). split; [reflexivity|]. exists [], v, sg, l. split; [reflexivity|]. split; [exact L|]. split; [|intros ? ? ? ? []]. intros P' HP'. rewrite (UP P' HP').
    intros E. rewrite E, Rabs_R0 in G. lra.
  - exists r. split; [exact Er|]. apply Skip; [|exact Hr]. right. intros P' HP'. rewrite (UP P' HP').
    destruct (Req_dec (gradient n phi Os (a_ent P)) 0) as [E|E]; [exact E|]. exfalso. apply G. apply Rabs_pos_lt. exact E.
  - exists r. split; [exact Er|]. apply Skip; [|exact Hr]. left. lra.
Qed.

(** a key of the wrong length stops the loop *)
Lemma loop_keyerror : (exists k P w s g h, In (k, P) t4 /\ fst k = word_name w /\ word_on n w (snd k) /\ meets qA (snd k) s /\
    letter_at wA qA s g /\ letter_at w (snd k) s h /\ g <> h /\ ~ In (List.length wA + List.length w - 1) ks8) ->
  forall c, foldM (cand_step ord n phi Os t4 t8 A) t4 c = Err KeyError.
Proof.
  intros (k & P & w & s & g & h & Hin & Ew & Wk & Hm & L1 & L2 & Hn & Hl).
  assert (G : forall l, incl l t4 -> In (k, P) l -> forall c, foldM (cand_step ord n phi Os t4 t8 A) l c = Err KeyError).
  { induction l as [|[k' P'] l IH]; intros Hi Hx c; [destruct Hx|].
    assert (Hin' : In (k', P') t4) by (apply Hi; left; auto).
    cbn [foldM]. destruct Hx as [E|Hx].
    - injection E as -> ->. destruct (cand_cases k P Hin) as (w2 & Ew2 & Wk2 & _ & [(H1 & _)|[(s2 & g2 & H1 & H2 & H3 & _)|(s2 & g2 & h2 & w' & sg & H1 & H2 & H3 & Hn2 & H5 & H6 & H7 & H9 & _ & H10)]]).
      + exfalso. exact (H1 s Hm).
      + exfalso. apply Hn. assert (w2 = w). { apply word_name_inj; [| |congruence]; eapply Forall_impl; try apply Wk; try apply Wk2; simpl; intros; lia. }
        subst w2. assert (s2 = s) by (apply Hm, H1; reflexivity). subst s2.
        destruct L1 as (i1 & A1 & A2), H2 as (i2 & B1 & B2), L2 as (j1 & C1 & C2), H3 as (j2 & D1 & D2).
        assert (N1 : NoDup qA) by (apply ss_lt_nodup, HA). assert (N2 : NoDup (snd k)) by (apply ss_lt_nodup, Wk).
        rewrite NoDup_nth_error in N1, N2. assert (i1 = i2) by (apply N1; [apply nth_error_Some; congruence|congruence]).
        assert (j1 = j2) by (apply N2; [apply nth_error_Some; congruence|congruence]). subst. congruence.
      + rewrite H10; [reflexivity|]. assert (w2 = w). { apply word_name_inj; [| |congruence]; eapply Forall_impl; try apply Wk; try apply Wk2; simpl; intros; lia. }
        subst w2. rewrite H7. exact Hl.
    - assert (Hi' : incl l t4) by (intros y Hy; apply Hi; right; auto).
      destruct (cand_cases k' P' Hin') as (w2 & _ & _ & _ & [(_ & H2)|[(s2 & g2 & _ & _ & _ & H2)|(s2 & g2 & h2 & w' & sg & _ & _ & _ & _ & _ & _ & _ & _ & H2 & H3)]]).
      + rewrite H2. cbn [bind]. apply IH; auto.
      + rewrite H2. cbn [bind]. apply IH; auto.
      + destruct (in_dec Nat.eq_dec (List.length w') ks8) as [D|D].
        * destruct (H2 D) as (PD & _ & _ & H2'). rewrite H2'. cbn [bind]. apply IH; auto.
        * rewrite (H3 D). reflexivity. }
  apply G; [apply incl_refl|exact Hin].
Qed.
End Loop.

(** ** The calls *)

(** the gradient of the cost along M in the state U|0...0>, its absolute value
    for a table entry is [slope] *)
Definition grad (n : nat) (Os : list (arr C)) (U M : mat C) : R :=
  let H := msum a_ent Os in Im (quad (2 ^ n) (fun i => U i 0) (msub (mmul (2 ^ n) M H) (mmul (2 ^ n) H M))).
(** [A,B] / 2i *)
Definition bracket (n : nat) (A B : mat C) : mat C :=
  mscale (Cmult (Copp Ci) (RtoC (/ 2))) (msub (mmul (2 ^ n) A B) (mmul (2 ^ n) B A)).
(** the entry (B, PB) can follow the entry (A, PA): they share one site, the
    cost falls visibly along their bracket and not at all flatly along B *)
Definition candidate (n : nat) (Os : list (arr C)) (U : mat C) (qA : list nat) (PA : arr C) (e : key * arr C) : Prop :=
  (exists s, meets qA (snd (fst e)) s) /\ (/ 1000 < Rabs (grad n Os U (bracket n (a_ent PA) (a_ent (snd e)))))%R /\
  grad n Os U (a_ent (snd e)) <> 0%R.
Definition first_candidate n Os U qA PA (table : list (key * arr C)) (B : key) (PB : arr C) : Prop :=
  exists l1 l2, table = l1 ++ (B, PB) :: l2 /\ candidate n Os U qA PA (B, PB) /\ Forall (fun e => ~ candidate n Os U qA PA e) l1.

(** the layers reached from l by successful calls *)
Inductive after (ord : list nat -> list nat) (l : zas_layer) : zas_layer -> Prop :=
| after_0 : after ord l l
| after_call l1 U V l2 : after ord l l1 -> zas_call ord l1 U = Ok (V, l2) -> after ord l l2.

Lemma grad_eq n Os U M : gradient n (qnode_state U) Os M = grad n Os U M.
Proof. apply gradient_eq. Qed.

Lemma grad_ext n Os U M N : meq (2 ^ n) M N -> grad n Os U M = grad n Os U N.
Proof. intros H. unfold grad. rewrite (quad_comm_ext (2 ^ n) _ M N (msum a_ent Os) (msum a_ent Os)) by (auto; reflexivity). reflexivity. Qed.

Lemma grad_scale n Os U c M : grad n Os U (mscale (RtoC c) M) = (c * grad n Os U M)%R.
Proof.
  unfold grad. rewrite (quad_ext _ _ _ (mscale (RtoC c) (msub (mmul (2 ^ n) M (msum a_ent Os)) (mmul (2 ^ n) (msum a_ent Os) M)))).
  - rewrite quad_scale. destruct (quad _ _ _) as [x y]. simpl. ring.
  - rewrite mmul_scale_l, mmul_scale_r. intros i j _ _. unfold msub, mscale. cbn [kmul ksub CStar]. ring.
Qed.

Lemma bracket_of n (A B D : arr C) sg : commutator n A B sg D -> meq (2 ^ n) (bracket n (a_ent A) (a_ent B)) (mscale (RtoC (sg / 2)) (a_ent D)).
Proof.
  intros H i j Hi Hj. unfold bracket. unfold mscale at 1. rewrite (H i j Hi Hj). unfold mscale. cbn [kmul CStar].
  destruct (a_ent D i j) as [x y]. apply C_ext; simpl; field.
Qed.

Lemma bracket_grad n Os U (A B D : arr C) sg : commutator n A B sg D -> grad n Os U (bracket n (a_ent A) (a_ent B)) = (sg / 2 * grad n Os U (a_ent D))%R.
Proof. intros H. rewrite (grad_ext n Os U _ _ (bracket_of n A B D sg H)). apply grad_scale. Qed.

(** words which share one site with equal letters commute *)
Lemma same_letter n w1 q1 w2 q2 s g (A B : arr C) : word_on n w1 q1 -> word_on n w2 q2 -> meets q1 q2 s ->
  letter_at w1 q1 s g -> letter_at w2 q2 s g -> word_operator n (word_name w1) q1 A -> word_operator n (word_name w2) q2 B -> commutator n A B 0 A.
Proof.
  intros W1 W2 Hm L1 L2 HA HB. pose proof W1 as (Hw1 & Hl1 & Hs1 & Hb1). pose proof W2 as (Hw2 & Hl2 & Hs2 & Hb2).
  destruct (meets_index w1 q1 w2 q2 s g g Hm L1 L2) as (i & j & Hi & Hj & Es & Hij & Eg & Eh & Hone).
  unfold commutator. rewrite (word_place n w1 q1 A W1 HA), (word_place n w2 q2 B W2 HB).
  rewrite (comm_operator n w1 q1 w2 q2 i j) by auto. rewrite Eg, Eh. intros x y _ _. unfold mscale. cbn [kmul ksub CStar].
  replace (Cminus (gphase (SR := CStar) g g) (gphase (SR := CStar) g g)) with (RtoC 0) by ring. ring.
Qed.

Lemma lens_ok b c (wA wB : list nat) : (b = true -> c = true) -> In (List.length wA) (ks4 b) -> In (List.length wB) (ks4 b) ->
  In (List.length wA + List.length wB - 1) (ks8 b c).
Proof.
  intros Hbc. unfold ks4, ks8. destruct b; [rewrite Hbc by auto|destruct c]; simpl; intros [<-|[<-|[]]] [<-|[<-|[]]] || (intros [<-|[]] [<-|[]]); simpl; auto.
Qed.

(** what one su8 call does *)
Definition su8_result (n : nat) (Os : list (arr C)) (eta : R) (t4 : list (key * arr C)) (qA : list nat) (PA : arr C) (a : R) (U : mat C)
    (r : res (mat C * zas_layer)) : Prop :=
  match r with
  | Ok (V, l) => a <> 0%R /\ exists B PB, first_candidate n Os U qA PA t4 B PB /\ za_current l = Some B /\ za_prev_eta l = Some a /\
      meq (2 ^ n) V (rotated n (a_ent PB) (- (eta * grad n Os U (bracket n (a_ent PA) (a_ent PB)) / a) / 2 ^ n) U)
  | Err UnboundLocalError => Forall (fun e => ~ candidate n Os U qA PA e) t4
  | Err ValueError => a = 0%R /\ exists B PB, first_candidate n Os U qA PA t4 B PB
  | Err _ => False
  end.

Lemma su8_core n ord Os t4 t8 b c eta ratio cnt wA qA PA a U : reorders ord ->
  complete_algebra (K := C) n (ks4 b) t4 -> complete_algebra (K := C) n (ks8 b c) t8 -> (b = true -> c = true) ->
  word_on n wA qA -> In (List.length wA) (ks4 b) -> In (((word_name wA, qA) : key), PA) t4 ->
  let r := zas_call ord (mkzas n eta t4 t8 Os ratio cnt false (Some (word_name wA, qA)) (Some a)) U in
  su8_result n Os eta t4 qA PA a U r /\
  forall V l, r = Ok (V, l) -> exists cnt' s' B, l = mkzas n eta t4 t8 Os ratio cnt' s' (Some B) (Some a) /\ In B (map fst t4).
Proof.
  intros Ho H4 H8 Hbc WA LA HinA r. pose proof H4 as (N4 & _ & _). pose proof H8 as (N8 & _ & _).
  assert (OA : word_operator n (word_name wA) qA PA).
  { destruct (table_word n _ t4 _ PA H4 HinA) as (_ & _ & _ & _ & G). exact G. }
  assert (Hlen : forall wB : list nat, In (List.length wB) (ks4 b) -> In (List.length wA + List.length wB - 1) (ks8 b c)) by (intros; apply lens_ok; auto).
  assert (I0 : loop_inv n (qnode_state U) Os t4 t8 (ks4 b) wA qA (mkcands [] [])).
  { split; [constructor|]. split; [constructor|]. split; intros; simpl in *; contradiction. }
  destruct (loop_ok n ord (qnode_state U) Os t4 t8 _ _ wA qA Ho H4 H8 WA t4 (incl_refl _) Hlen _ I0) as (cs & Ecs & Ics & _ & Pres).
  destruct (loop_order n ord (qnode_state U) Os t4 t8 _ _ wA qA Ho H4 H8 WA t4 (incl_refl _) Hlen _ cs I0) as (f & Ef); [exact N4|exact Ecs|].
  cbn [cd_su8 partners map app] in Ef.
  pose proof Ics as (Ns & N4' & Snd & _).
  destruct (pick_ok n (qnode_state U) Os t4 t8 _ wA qA H4 (cd_su4 cs) (cd_su8 cs) N4' Snd) as (pk & Epk & Hpk).
  assert (UP : forall B P P', In (B, P) t4 -> In (B, P') t4 -> P' = P).
  { intros B P P' Hb Hb'. pose proof (dget_In key_eqb key_eqb_spec t4 B P N4 Hb) as G1. pose proof (dget_In key_eqb key_eqb_spec t4 B P' N4 Hb') as G2. congruence. }
  (* an entry that fails the test of the loop is no candidate *)
  assert (NoC : forall AB v B sg PB, In (AB, (v, B, sg)) (cd_su8 cs) -> In (B, PB) t4 ->
    (v <= / 1000)%R \/ (forall P, In (B, P) t4 -> gradient n (qnode_state U) Os (a_ent P) = 0%R) -> ~ candidate n Os U qA PA (B, PB)).
  { intros AB v B sg PB Hx HB Hf (_ & G1 & G2). cbn [fst snd] in G1, G2.
    destruct (Snd AB v B sg Hx) as (wB & w & P & PD & D1 & D2 & D3 & D4 & D5 & D6 & D7 & D8 & D9 & D10 & D11 & D12 & D13 & D14).
    rewrite (UP B PB P HB D4) in *. destruct Hf as [Hf|Hf]; [|apply G2; rewrite <- grad_eq; apply Hf; exact HB].
    rewrite (bracket_grad n Os U PA PB PD sg (D12 PA OA)), <- (grad_eq n Os U (a_ent PD)), Rabs_mult, <- D10 in G1.
    assert (Rabs (sg / 2) = 1%R) by (destruct D11 as [-> | ->]; [rewrite Rabs_right by lra|rewrite Rabs_left by lra]; lra). rewrite H in G1. lra. }
  (* a candidate is recorded *)
  assert (Rec : forall B PB, In (B, PB) t4 -> candidate n Os U qA PA (B, PB) -> present B cs).
  { intros B PB HB ((s & Hm) & G1 & G2). cbn [fst snd] in Hm, G1, G2. destruct (table_word n _ t4 B PB H4 HB) as (wB & Ew & WB & _ & OB).
    destruct (meets_letters n wA qA wB (snd B) s WA WB Hm) as (g & h & L1 & L2).
    destruct (Nat.eq_dec g h) as [<-|Hn]; [|apply (Pres B PB wB s g h); auto]. exfalso. rewrite Ew in OB.
    rewrite (bracket_grad n Os U PA PB PA 0 (same_letter n wA qA wB (snd B) s g PA PB WA WB Hm L1 L2 OA OB)) in G1.
    replace (0 / 2)%R with 0%R in G1 by field. rewrite Rmult_0_l, Rabs_R0 in G1. lra. }
  assert (Er : r = match pk with
    | None => Err UnboundLocalError
    | Some (k_max, B) =>
        do P8 <- dget key_eqb t8 k_max;
        do vBs <- dget key_eqb (cd_su8 cs) k_max;
        if Req_EM_T a 0 then Err ValueError
        else
          do PB <- dget key_eqb t4 B;
          let switch := Z.leb (snd ratio) (cnt + 1)%Z in
          Ok (mmul (2 ^ n) (expm (2 ^ n) (mscale (mit (eta * (- (gradient n (qnode_state U) Os (a_ent P8) * 2 / a) / snd vBs) / 2 ^ n)) (a_ent PB))) U,
              mkzas n eta t4 t8 Os ratio (if switch then 0%Z else (cnt + 1)%Z) switch (Some B) (Some a))
    end).
  { unfold r, zas_call. cbn [za_state za_n za_current za_prev_eta za_su4 za_su8 za_obs za_ratio za_counter za_eta].
    rewrite (dget_In key_eqb key_eqb_spec t4 _ PA N4 HinA). cbn [bind]. rewrite Ecs. cbn [bind]. rewrite Epk. cbn [bind].
    destruct pk as [[km B]|]; reflexivity. }
  destruct pk as [[km B]|].
  2: { rewrite Er. split; [|discriminate]. unfold su8_result. apply Forall_forall. intros [B PB] HB Hc.
       destruct (Rec B PB HB Hc) as (AB & v & sg & Hx). apply (NoC AB v B sg PB Hx HB); [|exact Hc]. apply (Hpk AB v B sg Hx). }
  destruct Hpk as (l1 & v & sg & l2 & El & Hv & Hg & Hbefore).
  assert (Hx : In (km, (v, B, sg)) (cd_su8 cs)) by (rewrite El; apply in_or_app; right; left; auto).
  destruct (Snd km v B sg Hx) as (wB & w & PB & PD & D1 & D2 & D3 & D4 & D5 & D6 & D7 & D8 & D9 & D10 & D11 & D12 & D13 & D14).
  assert (Br := bracket_grad n Os U PA PB PD sg (D12 PA OA)). rewrite <- (grad_eq n Os U (a_ent PD)) in Br.
  assert (S1 : Rabs (sg / 2) = 1%R) by (destruct D11 as [-> | ->]; [rewrite Rabs_right by lra|rewrite Rabs_left by lra]; lra).
  assert (FC : first_candidate n Os U qA PA t4 B PB).
  { destruct (in_split (B, PB) t4 D4) as (m1 & m2 & Em). exists m1, m2. split; [exact Em|]. split.
    - split.
      + cbn [fst snd]. exact D14.
      + cbn [snd]. rewrite Br, Rabs_mult, S1, <- D10. split; [lra|]. rewrite <- grad_eq. apply Hg. exact D4.
    - apply Forall_forall. intros [B' PB'] HB' Hc.
      assert (Hin' : In (B', PB') t4) by (rewrite Em; apply in_or_app; auto).
      destruct (Rec B' PB' Hin' Hc) as (AB' & v' & sg' & Hx'). apply (NoC AB' v' B' sg' PB' Hx' Hin'); [|exact Hc].
      apply (Hbefore AB' v' B' sg').
      (* the order of the records is the order of the table *)
      assert (Hp : partners (cd_su8 cs) = partners l1 ++ B :: partners l2) by (rewrite El; unfold partners; rewrite map_app; reflexivity).
      assert (Em' : map fst t4 = map fst m1 ++ B :: map fst m2) by (rewrite Em, map_app; reflexivity).
      rewrite Em', filter_app in Ef. cbn [filter] in Ef.
      assert (Nd : NoDup (partners (cd_su8 cs))).
      { rewrite Ef. replace (filter f (map fst m1) ++ (if f B then B :: filter f (map fst m2) else filter f (map fst m2))) with (filter f (map fst t4)) by (rewrite Em', filter_app; reflexivity). apply NoDup_filter. exact N4. }
      assert (FB : f B = true).
      { destruct (f B) eqn:E; [reflexivity|]. exfalso. assert (HB : In B (partners (cd_su8 cs))) by (rewrite Hp; apply in_or_app; right; left; auto).
        rewrite Ef in HB. apply in_app_or in HB. rewrite !filter_In in HB. destruct HB as [[_ HB]|[_ HB]]; congruence. }
      rewrite FB in Ef.
      assert (E1 : partners l1 = filter f (map fst m1)).
      { clear - Hp Ef Nd. rewrite Hp in Ef, Nd. revert Ef Nd. generalize (partners l1) (filter f (map fst m1)) (partners l2) (filter f (map fst m2)). intros x y z t. clear. revert y.
        induction x as [|e x IH]; intros [|e' y] E N; simpl in E; auto.
        - injection E as -> E. exfalso. inversion N as [|? ? N1 N2]; subst. apply N1. apply in_or_app. right; left; auto.
        - injection E as <- E. exfalso. inversion N as [|? ? N1 N2]; subst. apply N1. apply in_or_app. right; left; auto.
        - injection E as <- E. f_equal. apply IH; auto. inversion N; auto. }
      assert (HB1 : In B' (partners l1)).
      { rewrite E1. apply filter_In. split; [apply in_map_iff; exists (B', PB'); auto|].
        assert (HB2 : In B' (partners (cd_su8 cs))) by (apply in_map_iff; eexists; split; [|exact Hx']; reflexivity).
        rewrite Ef in HB2. apply in_app_or in HB2. destruct HB2 as [HB2|[HB2|HB2]]; [apply filter_In in HB2; tauto|congruence|apply filter_In in HB2; tauto]. }
      rewrite El in Hx'. apply in_app_or in Hx'. destruct Hx' as [Hx'|Hx']; [exact Hx'|]. exfalso.
      assert (HB3 : In B' (B :: partners l2)).
      { destruct Hx' as [E|Hx']; [injection E as _ _ -> _; left; auto|]. right. apply in_map_iff. eexists; split; [|exact Hx']; reflexivity. }
      rewrite Hp in Nd. clear - Nd HB1 HB3. revert Nd HB1. generalize (partners l1). induction l as [|e l IH]; intros N H; [destruct H|].
      inversion N as [|? ? N1 N2]; subst. destruct H as [->|H]; [apply N1, in_or_app; auto|apply IH; auto]. }
  rewrite Er. rewrite (dget_In key_eqb key_eqb_spec t8 km PD N8 D9). cbn [bind].
  rewrite (dget_In key_eqb key_eqb_spec (cd_su8 cs) km _ Ns Hx). cbn [bind]. destruct (Req_EM_T a 0) as [E0|E0].
  { split; [|discriminate]. split; [exact E0|]. exists B, PB. exact FC. }
  rewrite (dget_In key_eqb key_eqb_spec t4 B PB N4 D4). cbn [bind]. split.
  - split; [exact E0|]. exists B, PB. split; [exact FC|]. split; [reflexivity|]. split; [reflexivity|]. cbn [snd].
    rewrite Br. unfold rotated. fold (mit (- (eta * (sg / 2 * gradient n (qnode_state U) Os (a_ent PD)) / a) / 2 ^ n)).
    replace (eta * (- (gradient n (qnode_state U) Os (a_ent PD) * 2 / a) / sg) / 2 ^ n)%R with (- (eta * (sg / 2 * gradient n (qnode_state U) Os (a_ent PD)) / a) / 2 ^ n)%R; [reflexivity|].
    pose proof (pow_lt 2 n ltac:(lra)) as Hpow. destruct D11 as [-> | ->]; field; lra.
  - intros V l E. injection E as <- <-. eexists _, _, B. split; [reflexivity|]. apply in_map_iff. exists (B, PB). auto.
Qed.

(** the invariant of the reachable layers *)
Lemma after_inv n ord Os t4 t8 b c eta ratio l : reorders ord ->
  complete_algebra (K := C) n (ks4 b) t4 -> complete_algebra (K := C) n (ks8 b c) t8 -> (b = true -> c = true) -> t4 <> [] ->
  after ord (mkzas n eta t4 t8 Os ratio 0%Z true None None) l ->
  exists cnt s cur pe, l = mkzas n eta t4 t8 Os ratio cnt s cur pe /\
    ((s = true /\ cur = None) \/ exists A a, cur = Some A /\ pe = Some a /\ In A (map fst t4)).
Proof.
  intros Ho H4 H8 Hbc Hne Ha. induction Ha as [|l1 U V l2 _ IH E].
  - eexists _, _, _, _. split; [reflexivity|]. left. auto.
  - destruct IH as (cnt & s & cur & pe & -> & Hs). pose proof H4 as (N4 & _ & _). destruct s.
    + unfold zas_call in E. cbn [za_state za_n za_su4 za_obs za_counter za_ratio za_eta za_su8] in E.
      destruct (greedy_step_spec n t4 t4 Os U N4 (incl_refl _) Hne) as (m1 & k & P & m2 & Em & Hin & Es & _). rewrite Es in E. cbn [bind] in E.
      destruct (rotosolve _ _ _ _ _) as [V' e]. injection E as <- <-. eexists _, _, _, _. split; [reflexivity|]. right. exists k, e.
      split; [reflexivity|]. split; [reflexivity|]. apply in_map_iff. exists (k, P). auto.
    + destruct Hs as [[E0 _]|(A & a & -> & -> & HA)]; [discriminate|].
      apply in_map_iff in HA. destruct HA as ([A' PA] & EA & HinA). cbn [fst] in EA. subst A'.
      destruct (table_word n _ t4 A PA H4 HinA) as (wA & EA & WA & LA & _).
      assert (EA' : A = (word_name wA, snd A)) by (destruct A; cbn [fst snd] in *; congruence). rewrite EA' in HinA, E.
      destruct (su8_core n ord Os t4 t8 b c eta ratio cnt wA (snd A) PA a U Ho H4 H8 Hbc WA LA HinA) as (_ & G).
      destruct (G V l2 E) as (cnt' & s' & B & -> & HB). eexists _, _, _, _. split; [reflexivity|]. right. exists B, a. auto.
Qed.

Lemma zas_tables n obs eta b c ratio : Forall (fits n) obs -> (0 <= eta <= 1)%R -> 3 <= n ->
  exists t4 t8 Os, ZassenhausLayer n obs eta b c ratio = Ok (mkzas n eta t4 t8 Os ratio 0%Z true None None) /\ Forall2 (embedded n) obs Os /\
    complete_algebra (K := C) n (ks4 b) t4 /\ complete_algebra (K := C) n (ks8 b c) t8 /\ t4 <> [].
Proof.
  intros Hf He Hn. destruct (obs_embedded n obs Hf) as (Os & EO & HO).
  destruct (zas_init n obs Os eta b c ratio EO He Hn) as (t4 & t8 & El & K4 & H4 & K8 & H8). exists t4, t8, Os.
  assert (H4' : complete_algebra (K := C) n (ks4 b) t4). { apply complete_intro; auto. apply ks4_NoDup. }
  split; [exact El|]. split; [exact HO|]. split; [exact H4'|]. split; [apply complete_intro; auto; apply ks8_NoDup|].
  intros ->. destruct (proj2 (proj1 (proj2 H4') "XX"%string [0; 1])) as [].
  exists [1; 1]. split; [reflexivity|]. split; [unfold ks4; destruct b; simpl; auto|]. repeat split; repeat constructor; lia.
Qed.

(** ** C50: the su8 calls. Whatever happened before, a call in state 'su8' knows
    the last direction A and the angle a of the last su4 step; it turns along the
    first candidate of the table, by the angle that belongs to the gradient along
    [A,B]/2i; without a candidate it raises UnboundLocalError, and for a = 0 it
    divides by zero. *)
Theorem C50_su8_call : forall n obs eta add_su2 add_su4 ratio ord, Forall (fits n) obs -> (0 <= eta <= 1)%R -> 3 <= n ->
  (add_su2 = true -> add_su4 = true) -> reorders ord ->
  exists l Os table, ZassenhausLayer n obs eta add_su2 add_su4 ratio = Ok l /\ Forall2 (embedded n) obs Os /\ za_su4 l = table /\
    complete_algebra (K := C) n ((if add_su2 then [1] else []) ++ [2]) table /\
    forall l' U, after ord l l' -> za_state l' = false ->
      exists d qA PA a, za_current l' = Some (d, qA) /\ za_prev_eta l' = Some a /\ In (((d, qA) : key), PA) table /\
        su8_result n Os eta table qA PA a U (zas_call ord l' U).
Proof.
  intros n obs eta b c ratio ord Hf He Hn Hbc Ho. destruct (zas_tables n obs eta b c ratio Hf He Hn) as (t4 & t8 & Os & El & HO & H4 & H8 & Hne).
  eexists _, Os, t4. split; [exact El|]. split; [exact HO|]. split; [reflexivity|]. split; [exact H4|].
  intros l' U Ha Hs. destruct (after_inv n ord Os t4 t8 b c eta ratio l' Ho H4 H8 Hbc Hne Ha) as (cnt & s & cur & pe & -> & Hi).
  cbn [za_state] in Hs. subst s. destruct Hi as [[E0 _]|(A & a & -> & -> & HA)]; [discriminate|].
  apply in_map_iff in HA. destruct HA as ([A' PA] & EA & HinA). cbn [fst] in EA. subst A'.
  destruct (table_word n _ t4 A PA H4 HinA) as (wA & EA & WA & LA & _). destruct A as [d qA]. cbn [fst snd] in *. subst d.
  exists (word_name wA), qA, PA, a. split; [reflexivity|]. split; [reflexivity|]. split; [exact HinA|].
  apply (su8_core n ord Os t4 t8 b c eta ratio cnt wA qA PA a U Ho H4 H8 Hbc WA LA HinA).
Qed.
Print Assumptions C50_su8_call.

(** a su4 call turns along the first direction of largest slope and records the
    angle of rotosolve *)
Theorem C50_su4_call : forall n obs eta add_su2 add_su4 ratio ord, Forall (fits n) obs -> (0 <= eta <= 1)%R -> 3 <= n ->
  (add_su2 = true -> add_su4 = true) -> reorders ord ->
  exists l Os table, ZassenhausLayer n obs eta add_su2 add_su4 ratio = Ok l /\ Forall2 (embedded n) obs Os /\ za_su4 l = table /\
    complete_algebra (K := C) n ((if add_su2 then [1] else []) ++ [2]) table /\
    forall l' U, after ord l l' -> za_state l' = true ->
      exists k P l'', first_largest (slope n Os U) None table k P /\
        zas_call ord l' U = Ok (fst (rotosolve n (a_ent P) Os U (String.length (fst k))), l'') /\
        za_current l'' = Some k /\ za_prev_eta l'' = Some (snd (rotosolve n (a_ent P) Os U (String.length (fst k)))).
Proof.
  intros n obs eta b c ratio ord Hf He Hn Hbc Ho. destruct (zas_tables n obs eta b c ratio Hf He Hn) as (t4 & t8 & Os & El & HO & H4 & H8 & Hne).
  eexists _, Os, t4. split; [exact El|]. split; [exact HO|]. split; [reflexivity|]. split; [exact H4|].
  intros l' U Ha Hs. destruct (after_inv n ord Os t4 t8 b c eta ratio l' Ho H4 H8 Hbc Hne Ha) as (cnt & s & cur & pe & -> & Hi).
  cbn [za_state] in Hs. subst s. pose proof H4 as (N4 & _ & _).
  assert (Ef : filter (fun kv => negb (is_prev None (fst kv))) t4 = t4).
  { clear. induction t4 as [|x t IH]; [reflexivity|]. simpl. f_equal. exact IH. }
  destruct (pick_spec n t4 None Os U N4) as (k & P & Es & Hfl); [rewrite Ef; exact Hne|]. rewrite Ef in Es.
  exists k, P. destruct (rotosolve n (a_ent P) Os U (String.length (fst k))) as [V' e]. eexists. split; [exact Hfl|].
  unfold zas_call. cbn [za_state za_n za_su4 za_obs za_counter za_ratio za_eta za_su8]. rewrite Es. cbn [bind].
  split; [reflexivity|]. split; reflexivity.
Qed.
Print Assumptions C50_su4_call.

Lemma reach_su8 b c ord : exists l l', ZassenhausLayer 3 obs4 1 b c (1%Z, 2%Z) = Ok l /\ after ord l l' /\ za_state l' = false.
Proof.
  destruct C48_case as (Hf & He & Hn).
  destruct (zas_tables 3 obs4 1 b c (1%Z, 2%Z) Hf He Hn) as (t4 & t8 & Os & El & HO & H4 & H8 & Hne).
  pose proof H4 as (N4 & _ & _).
  destruct (greedy_step_spec 3 t4 t4 Os (@mid C CStar) N4 (incl_refl _) Hne) as (m1 & k & P & m2 & Em & Hin & Es & _).
  destruct (rotosolve 3 (a_ent P) Os (@mid C CStar) (String.length (fst k))) as [V e].
  eexists. exists (mkzas 3 1 t4 t8 Os (1%Z, 2%Z) 0%Z false (Some k) (Some e)).
  split; [exact El|]. split; [|reflexivity].
  eapply (after_call ord _ _ (@mid C CStar)); [apply after_0|]. unfold zas_call. cbn [za_state za_n za_su4 za_obs za_counter za_ratio za_eta za_su8].
  rewrite Es. cbn [bind]. reflexivity.
Qed.

(** three qubits, the observables Y0, Y0, Y0, Z0, ratio (1, 2): the second call
    is in state 'su8' *)
Example C50_su8_case : reorders (@rev nat) /\ exists l l', ZassenhausLayer 3 obs4 1 false false (1%Z, 2%Z) = Ok l /\
  after (@rev nat) l l' /\ za_state l' = false.
Proof. split; [intros l; apply Permutation_sym, Permutation_rev|apply reach_su8]. Qed.

Lemma word_on1 n g s : 1 <= g <= 3 -> s < n -> word_on n [g] [s].
Proof.
  intros Hg Hs. split; [apply Forall_cons; [exact Hg|apply Forall_nil]|]. split; [reflexivity|]. split; [repeat constructor|].
  apply Forall_cons; [exact Hs|apply Forall_nil].
Qed.

Lemma word_on2 n g h s t : 1 <= g <= 3 -> 1 <= h <= 3 -> s < t < n -> word_on n [g; h] [s; t].
Proof.
  intros Hg Hh Hs. split; [repeat (apply Forall_cons; [assumption|]); apply Forall_nil|]. split; [reflexivity|].
  split; [repeat constructor; lia|]. repeat (apply Forall_cons; [lia|]); apply Forall_nil.
Qed.

(** ** C70: with add_su2 and without add_su4 every su8 call raises KeyError *)
Theorem C70_su8_with_su2_refuted : forall n obs eta ratio ord, Forall (fits n) obs -> (0 <= eta <= 1)%R -> 3 <= n -> reorders ord ->
  exists l, ZassenhausLayer n obs eta true false ratio = Ok l /\
    forall l' U, after ord l l' -> za_state l' = false -> zas_call ord l' U = Err KeyError.
Proof.
  intros n obs eta ratio ord Hf He Hn Ho. destruct (zas_tables n obs eta true false ratio Hf He Hn) as (t4 & t8 & Os & El & HO & H4 & H8 & Hne).
  eexists. split; [exact El|]. pose proof H4 as (N4 & _ & _).
  assert (Fail : forall cnt A a U, In A (map fst t4) -> zas_call ord (mkzas n eta t4 t8 Os ratio cnt false (Some A) (Some a)) U = Err KeyError).
  { intros cnt A a U HA. apply in_map_iff in HA. destruct HA as ([A' PA] & EA & HinA). cbn [fst] in EA. subst A'.
    destruct (table_word n _ t4 A PA H4 HinA) as (wA & EA & WA & LA & _). destruct A as [d qA]. cbn [fst snd] in *. subst d.
    assert (L : exists k P w s g h, In (k, P) t4 /\ fst k = word_name w /\ word_on n w (snd k) /\ meets qA (snd k) s /\
      letter_at wA qA s g /\ letter_at w (snd k) s h /\ g <> h /\ ~ In (List.length wA + List.length w - 1) (ks8 true false)).
    { pose proof WA as (Hw & Hl & Hs & Hb).
      assert (Hdiff : forall g, exists h, 1 <= h <= 3 /\ g <> h) by (intros g; destruct (Nat.eq_dec g 1); [exists 2|exists 1]; lia).
      unfold ks4 in LA. destruct LA as [LA|[LA|[]]].
      - destruct wA as [|g [|? ?]]; try discriminate. destruct qA as [|s [|? ?]]; try discriminate.
        inversion Hb as [|? ? Hsn _]; subst. destruct (Hdiff g) as (h & Hh & Hgh).
        destruct (Nat.eq_dec s 0) as [->|Hs0].
        + destruct (table_has n _ t4 [h; 1] [0; 1] H4) as (P & HP & _); [first [apply word_on1; lia|apply word_on2; lia]|unfold ks4; simpl; auto|].
          exists (word_name [h; 1], [0; 1]), P, [h; 1], 0, g, h. split; [exact HP|]. split; [reflexivity|]. split; [first [apply word_on1; lia|apply word_on2; lia]|].
          split; [intros x; simpl; lia|]. split; [exists 0; auto|]. split; [exists 0; auto|]. split; [exact Hgh|]. unfold ks8. simpl. lia.
        + destruct (table_has n _ t4 [1; h] [0; s] H4) as (P & HP & _); [first [apply word_on1; lia|apply word_on2; lia]|unfold ks4; simpl; auto|].
          exists (word_name [1; h], [0; s]), P, [1; h], s, g, h. split; [exact HP|]. split; [reflexivity|]. split; [first [apply word_on1; lia|apply word_on2; lia]|].
          split; [intros x; simpl; lia|]. split; [exists 0; auto|]. split; [exists 1; auto|]. split; [exact Hgh|]. unfold ks8. simpl. lia.
      - destruct wA as [|g [|g2 [|? ?]]]; try discriminate. destruct qA as [|s [|s2 [|? ?]]]; try discriminate.
        inversion Hb as [|? ? Hsn Hb']; subst. inversion Hs as [|? ? _ Hlt]; subst. inversion Hlt as [|? ? Hlt' _]; subst. destruct (Hdiff g) as (h & Hh & Hgh).
        destruct (table_has n _ t4 [h] [s] H4) as (P & HP & _); [first [apply word_on1; lia|apply word_on2; lia]|unfold ks4; simpl; auto|].
        exists (word_name [h], [s]), P, [h], s, g, h. split; [exact HP|]. split; [reflexivity|]. split; [first [apply word_on1; lia|apply word_on2; lia]|].
        split; [intros x; simpl; lia|]. split; [exists 0; auto|]. split; [exists 0; auto|]. split; [exact Hgh|]. unfold ks8. simpl. lia. }
    unfold zas_call. cbn [za_state za_n za_current za_prev_eta za_su4 za_su8 za_obs za_ratio za_counter za_eta].
    rewrite (dget_In key_eqb key_eqb_spec t4 _ PA N4 HinA). cbn [bind].
    rewrite (loop_keyerror n ord (qnode_state U) Os t4 t8 _ _ wA qA Ho H4 H8 WA L). reflexivity. }
  assert (Inv : forall l', after ord (mkzas n eta t4 t8 Os ratio 0%Z true None None) l' -> exists cnt s cur pe, l' = mkzas n eta t4 t8 Os ratio cnt s cur pe /\
    ((s = true /\ cur = None) \/ exists A a, cur = Some A /\ pe = Some a /\ In A (map fst t4))).
  { intros l' Ha. induction Ha as [|l1 U V l2 _ IH E].
    - eexists _, _, _, _. split; [reflexivity|]. left. auto.
    - destruct IH as (cnt & s & cur & pe & -> & Hs). destruct s.
      + unfold zas_call in E. cbn [za_state za_n za_su4 za_obs za_counter za_ratio za_eta za_su8] in E.
        destruct (greedy_step_spec n t4 t4 Os U N4 (incl_refl _) Hne) as (m1 & k & P & m2 & Em & Hin & Es & _). rewrite Es in E. cbn [bind] in E.
        destruct (rotosolve _ _ _ _ _) as [V' e]. injection E as <- <-. eexists _, _, _, _. split; [reflexivity|]. right. exists k, e.
        split; [reflexivity|]. split; [reflexivity|]. apply in_map_iff. exists (k, P). auto.
      + destruct Hs as [[E0 _]|(A & a & -> & -> & HA)]; [discriminate|]. rewrite (Fail cnt A a U HA) in E. discriminate. }
  intros l' U Ha Hs. destruct (Inv l' Ha) as (cnt & s & cur & pe & -> & Hi). cbn [za_state] in Hs. subst s.
  destruct Hi as [[E0 _]|(A & a & -> & -> & HA)]; [discriminate|]. apply Fail. exact HA.
Qed.
Print Assumptions C70_su8_with_su2_refuted.

(** such a layer does reach the state 'su8' *)
Example C70_case : reorders (@rev nat) /\ exists l l', ZassenhausLayer 3 obs4 1 true false (1%Z, 2%Z) = Ok l /\
  after (@rev nat) l l' /\ za_state l' = false.
Proof. split; [intros l; apply Permutation_sym, Permutation_rev|apply reach_su8]. Qed.
