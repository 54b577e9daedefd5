(** The commutators looked up by ZassenhausLayer. *)
From Coq Require Import ZArith QArith Qcanon Qreals Arith Lia Bool String Ascii Sorted Permutation Reals Lra Ring Setoid Morphisms.
From Coquelicot Require Import Coquelicot.
From Verif Require Import Py StarRing Matrix GaussQ PauliSpec PauliModel PauliSem PauliProofs PauliProofs2 Cplx Bits PauliBasis Expm UtilsModel UtilsProofs
  CircuitModel CircuitProofs CircuitProofs2 AlgebraModel AlgebraProofs LayerModel LayerProofs GreedyModel.
From Coq Require Import List.
Import ListNotations.
Local Open Scope nat_scope.
Local Notation Str := Coq.Strings.String.String.

(** ** The monomial of a key *)
Definition wpauli (gs : nat * nat) : pauli := {| p_alpha := snd gs; p_gamma := fst gs; p_coeff := g1 |}.
Definition wp (w q : list nat) : list pauli := map wpauli (combine w q).

Lemma wp_sites w q : List.length q = List.length w -> sites (wp w q) = q.
Proof.
  revert q. induction w as [|g w IH]; intros [|s q] H; try discriminate; [reflexivity|].
  unfold sites, wp in *. cbn [combine map]. f_equal. apply IH. simpl in H. lia.
Qed.

Lemma wp_valid w q : Forall (fun g => g <= 3) w -> Forall valid (wp w q).
Proof.
  intros H. unfold wp. apply Forall_map, Forall_forall. intros [g s] Hin. apply in_combine_l in Hin.
  rewrite Forall_forall in H. apply H. exact Hin.
Qed.

Lemma chars_word w : chars (word_name w) = map (fun g => Str (letter g) EmptyString) w.
Proof. induction w as [|g w IH]; [reflexivity|]. cbn [map]. rewrite <- IH. reflexivity. Qed.

Lemma combine_map_l {A B C} (f : A -> B) (l : list A) (m : list C) :
  combine (map f l) m = map (fun xy => (f (fst xy), snd xy)) (combine l m).
Proof. revert m. induction l as [|a l IH]; intros [|c m]; try reflexivity. cbn [map combine]. rewrite IH. reflexivity. Qed.

Lemma letter_init g s : 1 <= g <= 3 ->
  Pauli_init (Z.of_nat s) (GStr (Str (letter g) EmptyString)) (CNum g1) = Ok {| p_alpha := s; p_gamma := g; p_coeff := g1 |}.
Proof.
  intros Hg. unfold Pauli_init. replace (Z.of_nat s <? 0)%Z with false by (symmetry; apply Z.ltb_ge; lia).
  destruct g as [|[|[|[|g]]]]; try lia; cbn; rewrite Nat2Z.id; reflexivity.
Qed.

Lemma key_mono_ok w q : Forall (fun g => 1 <= g <= 3) w -> List.length q = List.length w -> StronglySorted lt q ->
  key_mono (word_name w, q) = Ok (mk_mono (wp w q)) /\ wfc (mk_mono (wp w q)).
Proof.
  intros Hw Hl Hs. unfold key_mono. cbn [fst snd]. rewrite chars_word, combine_map_l, mapM_map.
  rewrite (mapM_ok _ wpauli).
  - cbn [bind]. fold (wp w q). assert (Hn : NoDup (sites (wp w q))) by (rewrite wp_sites by auto; apply ss_lt_nodup; auto).
    split.
    + rewrite mono_init_ok by auto. f_equal. f_equal. apply sorted_unique; [|rewrite wp_sites; auto|apply sort_perm].
      apply strict_sites; [apply sort_sorted|]. eapply Permutation_NoDup; [|exact Hn]. apply Permutation_map, Permutation_sym, sort_perm.
    + split; [split; [reflexivity|split]|reflexivity]; cbn [m_paulis mk_mono].
      * rewrite wp_sites; auto.
      * apply wp_valid. eapply Forall_impl; [|exact Hw]. simpl. intros; lia.
  - intros [g s] Hin. cbn [fst snd]. apply letter_init. apply in_combine_l in Hin. rewrite Forall_forall in Hw. apply Hw. exact Hin.
Qed.

(** the factor at a site *)
Lemma look_wp w q s : List.length q = List.length w ->
  look (wp w q) s = match index_of s q with Some j => Some (wpauli (nth j w 0, s)) | None => None end.
Proof.
  revert q. induction w as [|g w IH]; intros [|x q] H; try discriminate; [reflexivity|].
  unfold wp, look in *. cbn [combine map find index_of p_alpha wpauli fst snd]. rewrite (Nat.eqb_sym s x).
  destruct (Nat.eqb_spec x s) as [->|Hn]; [reflexivity|]. simpl in H. rewrite IH by lia. destruct (index_of s q); reflexivity.
Qed.

(** ** The key of a monomial *)
Lemma mono_letter p : valid p -> PauliModel.letter p = Ok (Str (letter (p_gamma p)) EmptyString).
Proof. unfold valid, PauliModel.letter. intros H. destruct (p_gamma p) as [|[|[|[|g]]]]; try lia; reflexivity. Qed.

Lemma mono_key_ok ps c : Forall valid ps ->
  mono_key (set_coeff (mk_mono ps) c) = Ok (word_name (map p_gamma ps), sites ps).
Proof.
  intros H. unfold mono_key. cbn [m_paulis set_coeff mk_mono].
  rewrite (mapM_ok _ (fun p => Str (letter (p_gamma p)) EmptyString)).
  - cbn [bind]. f_equal. f_equal. transitivity (String.concat "" (map (fun c => Str c EmptyString) (map (fun p => letter (p_gamma p)) ps))).
    + rewrite map_map. reflexivity.
    + rewrite concat_singletons. clear. induction ps as [|p ps IH]; [reflexivity|]. cbn [map fold_right]. rewrite IH. reflexivity.
  - intros p Hp. apply mono_letter. rewrite Forall_forall in H. apply H. exact Hp.
Qed.

Lemma has_identity w : Forall (fun g => g <= 3) w -> str_in "I" (chars (word_name w)) = existsb (Nat.eqb 0) w.
Proof.
  intros H. rewrite chars_word. unfold str_in. induction H as [|g w Hg _ IH]; [reflexivity|]. cbn [map existsb]. rewrite IH. f_equal.
  destruct g as [|[|[|[|g]]]]; try lia; reflexivity.
Qed.

(** ** Two words with one common site *)
Lemma kprod_single {A} {K} {SR : StarRing K} (f : A -> K) l s : NoDup l -> In s l -> (forall x, In x l -> x <> s -> f x = k1) -> kprod f l = f s.
Proof.
  intros Hn Hin H. induction Hn as [|x l Hx Hn IH]; [destruct Hin|]. cbn [kprod fold_right].
  pose proof (Rmul_comm k_ring) as Hc. pose proof (Rmul_1_l k_ring) as H1. destruct Hin as [->|Hin].
  - change (kmul (f s) (kprod f l) = f s). rewrite (kprod_1 f l).
    + rewrite Hc. apply H1.
    + intros y Hy. apply H; [right; auto|]. intros ->. contradiction.
  - rewrite (H x); [|left; auto|intros ->; contradiction]. rewrite H1. apply IH; auto. intros y Hy. apply H. right; auto.
Qed.

Section TwoWords.
Variables (w1 q1 w2 q2 : list nat) (i j : nat).
Hypothesis (Hw1 : Forall (fun g => 1 <= g <= 3) w1) (Hw2 : Forall (fun g => 1 <= g <= 3) w2).
Hypothesis (Hl1 : List.length q1 = List.length w1) (Hl2 : List.length q2 = List.length w2).
Hypothesis (Hs1 : StronglySorted lt q1) (Hs2 : StronglySorted lt q2).
Hypothesis (Hi : i < List.length q1) (Hj : j < List.length q2) (Hij : nth i q1 0 = nth j q2 0).
Hypothesis (Hone : forall s, In s q1 -> In s q2 -> s = nth i q1 0).

Let s0 := nth i q1 0.
Let g := nth i w1 0.
Let h := nth j w2 0.
Let A := wp w1 q1.
Let B := wp w2 q2.

Lemma tw_g : 1 <= g <= 3.
Proof. unfold g. rewrite Forall_forall in Hw1. apply Hw1, nth_In. lia. Qed.
Lemma tw_h : 1 <= h <= 3.
Proof. unfold h. rewrite Forall_forall in Hw2. apply Hw2, nth_In. lia. Qed.

Lemma tw_lookA : look A s0 = Some (wpauli (g, s0)).
Proof. unfold A. rewrite look_wp by auto. unfold s0. rewrite index_of_nth by (auto; apply ss_lt_nodup; auto). reflexivity. Qed.
Lemma tw_lookB : look B s0 = Some (wpauli (h, s0)).
Proof. unfold B. rewrite look_wp by auto. unfold s0. rewrite Hij, index_of_nth by (auto; apply ss_lt_nodup; auto). reflexivity. Qed.

Lemma tw_only s : s <> s0 -> look A s = None \/ look B s = None.
Proof.
  intros Hn. destruct (look A s) as [a|] eqn:EA; [|auto]. destruct (look B s) as [b|] eqn:EB; [|auto]. exfalso.
  apply look_some in EA. apply look_some in EB. destruct EA as [EA <-], EB as [EB E]. apply Hn, Hone.
  - rewrite <- (wp_sites w1 q1) by auto. apply in_map. exact EA.
  - rewrite <- E, <- (wp_sites w2 q2) by auto. apply in_map. exact EB.
Qed.

Lemma tw_coeff_look s p : (look A s = Some p \/ look B s = Some p) -> p_coeff p = g1 /\ 1 <= p_gamma p <= 3.
Proof.
  intros H. assert (Hin : In p A \/ In p B) by (destruct H as [H|H]; apply look_some in H; tauto). clear H.
  destruct Hin as [H|H]; apply in_map_iff in H; destruct H as ([x y] & <- & H); cbn; (split; [reflexivity|]);
    apply in_combine_l in H; [rewrite Forall_forall in Hw1|rewrite Forall_forall in Hw2]; auto.
Qed.

(** coefficient and letters of the product *)
Lemma tw_coeff : kprod (SR := GaussQ) p_coeff (sort_alpha (map (combine_at A B) (union_sites A B))) = gphase (SR := GaussQ) g h.
Proof.
  rewrite (kprod_perm _ _ _ (sort_perm _)), kprod_map. rewrite (kprod_single _ _ s0).
  - unfold combine_at. rewrite tw_lookA, tw_lookB. cbn. apply gq_eq; simpl; ring.
  - apply NoDup_nodup.
  - unfold union_sites. apply nodup_In, in_or_app. left. unfold A. rewrite wp_sites by auto. apply nth_In. auto.
  - intros x Hx Hn. destruct (tw_only x Hn) as [E|E]; unfold combine_at; rewrite E.
    + destruct (look B x) as [p|] eqn:EB; [|reflexivity]. apply (tw_coeff_look x p). auto.
    + destruct (look A x) as [p|] eqn:EA; [|reflexivity]. apply (tw_coeff_look x p). auto.
Qed.

Lemma tw_letter p : In p (sort_alpha (map (combine_at A B) (union_sites A B))) ->
  (p_alpha p = s0 /\ p_gamma p = gidx g h) \/ (p_alpha p <> s0 /\ 1 <= p_gamma p <= 3).
Proof.
  intros Hp. apply (Permutation_in _ (sort_perm _)) in Hp. apply in_map_iff in Hp. destruct Hp as (x & <- & Hx). rewrite combine_alpha.
  destruct (Nat.eq_dec x s0) as [->|Hn].
  - left. split; [reflexivity|]. unfold combine_at. rewrite tw_lookA, tw_lookB. reflexivity.
  - right. split; [exact Hn|]. unfold union_sites in Hx. apply nodup_In, in_app_or in Hx.
    destruct (tw_only x Hn) as [E|E]; unfold combine_at; rewrite E.
    + destruct (look B x) as [p|] eqn:EB; [apply (tw_coeff_look x p); auto|]. apply look_none in E, EB. tauto.
    + destruct (look A x) as [p|] eqn:EA; [apply (tw_coeff_look x p); auto|]. apply look_none in E, EA. tauto.
Qed.

Lemma tw_in_s0 : exists p, In p (sort_alpha (map (combine_at A B) (union_sites A B))) /\ p_alpha p = s0.
Proof.
  exists (combine_at A B s0). split; [|apply combine_alpha]. apply (Permutation_in _ (Permutation_sym (sort_perm _))). apply in_map.
  unfold union_sites. apply nodup_In, in_or_app. left. unfold A. rewrite wp_sites by auto. apply nth_In. auto.
Qed.
End TwoWords.

Definition prod_ps (w1 q1 w2 q2 : list nat) : list pauli :=
  sort_alpha (map (combine_at (wp w1 q1) (wp w2 q2)) (union_sites (wp w1 q1) (wp w2 q2))).

Lemma gidx_0 g h : 1 <= g <= 3 -> 1 <= h <= 3 -> (gidx g h = 0 <-> g = h).
Proof. intros Hg Hh. destruct g as [|[|[|[|g]]]]; try lia; destruct h as [|[|[|[|h]]]]; try lia; simpl; lia. Qed.

(** ** Products of Pauli words *)
Lemma pword_seq {K} {SR : StarRing K} v n : List.length v = n -> map (fun p => nth p v 0) (seq 0 n) = v.
Proof.
  intros <-. apply nth_ext with (d := 0) (d' := 0); [rewrite map_length, seq_length; auto|].
  intros k Hk. rewrite map_length, seq_length in Hk. rewrite nth_map_seq by auto. reflexivity.
Qed.

Lemma pword_mul {K} {SR : StarRing K} n v1 v2 : List.length v1 = n -> List.length v2 = n ->
  Forall (fun g => g <= 3) v1 -> Forall (fun g => g <= 3) v2 ->
  meq (2 ^ n) (mmul (2 ^ n) (pword v1) (pword v2))
    (mscale (kprod (fun p => gphase (nth p v1 0) (nth p v2 0)) (seq 0 n)) (pword (map (fun p => gidx (nth p v1 0) (nth p v2 0)) (seq 0 n)))).
Proof.
  intros H1 H2 F1 F2. unfold pword. rewrite <- (pword_seq (K := K) v1 n H1) at 1. rewrite <- (pword_seq (K := K) v2 n H2) at 1. rewrite !map_map.
  assert (El : List.length (seq 0 n) = n) by apply seq_length.
  rewrite <- El at 1 2. rewrite (kronl_mul (fun p => sigma (nth p v1 0)) (fun p => sigma (nth p v2 0)) (seq 0 n)).
  rewrite (kronl_ext _ (fun p => mscale (gphase (nth p v1 0) (nth p v2 0)) (sigma (gidx (nth p v1 0) (nth p v2 0))))).
  - apply kronl_scale.
  - intros p Hp. apply in_seq in Hp. rewrite Forall_forall in F1, F2. apply sigma_mul; [apply F1|apply F2]; apply nth_In; lia.
Qed.

Lemma gidx_comm g h : gidx g h = gidx h g.
Proof.
  destruct g as [|[|[|[|g]]]]; destruct h as [|[|[|[|h]]]]; reflexivity.
Qed.

Lemma gphase_0_r {K} {SR : StarRing K} g : gphase g 0 = k1.
Proof. destruct g as [|[|[|[|g]]]]; reflexivity. Qed.

(** ** The commutator of two words with one common site *)
Lemma comm_words ord w1 q1 w2 q2 i j : reorders ord ->
  Forall (fun g => 1 <= g <= 3) w1 -> Forall (fun g => 1 <= g <= 3) w2 ->
  List.length q1 = List.length w1 -> List.length q2 = List.length w2 -> StronglySorted lt q1 -> StronglySorted lt q2 ->
  i < List.length q1 -> j < List.length q2 -> nth i q1 0 = nth j q2 0 -> (forall s, In s q1 -> In s q2 -> s = nth i q1 0) ->
  let g := nth i w1 0 in let h := nth j w2 0 in
  let ps := prod_ps w1 q1 w2 q2 in
  let c := gsub (gphase (SR := GaussQ) g h) (gphase (SR := GaussQ) h g) in
  mono_commutator ord (mk_mono (wp w1 q1)) (mk_mono (wp w2 q2)) = Ok (set_coeff (mk_mono ps) c) /\
  mono_key (set_coeff (mk_mono ps) c) = Ok (word_name (map p_gamma ps), sites ps) /\
  str_in "I" (chars (word_name (map p_gamma ps))) = Nat.eqb g h /\
  StronglySorted lt (sites ps) /\ Permutation (sites ps) (q1 ++ remove Nat.eq_dec (nth i q1 0) q2) /\
  (g <> h -> Forall (fun x => 1 <= x <= 3) (map p_gamma ps)).
Proof.
  intros Ho Hw1 Hw2 Hl1 Hl2 Hs1 Hs2 Hi Hj Hij Hone g h ps c.
  destruct (key_mono_ok w1 q1 Hw1 Hl1 Hs1) as [_ W1]. destruct (key_mono_ok w2 q2 Hw2 Hl2 Hs2) as [_ W2].
  pose proof (prod_wfc _ _ (proj1 W1) (proj1 W2)) as [(_ & Ss & Sv) _]. cbn [m_paulis mk_mono] in Ss, Sv.
  change (prod_paulis (mk_mono (wp w1 q1)) (mk_mono (wp w2 q2))) with ps in Ss, Sv.
  assert (Hone' : forall s, In s q2 -> In s q1 -> s = nth j q2 0) by (intros s A B; rewrite <- Hij; auto).
  assert (Hmem : forall s, In s (sites ps) <-> In s q1 \/ In s q2).
  { intros s. unfold ps, prod_ps. split.
    - intros H. apply in_map_iff in H. destruct H as (p & <- & Hp). apply (Permutation_in _ (sort_perm _)) in Hp.
      apply in_map_iff in Hp. destruct Hp as (x & <- & Hx). rewrite combine_alpha. unfold union_sites in Hx.
      apply nodup_In, in_app_or in Hx. rewrite !wp_sites in Hx by auto. exact Hx.
    - intros H. apply in_map_iff. exists (combine_at (wp w1 q1) (wp w2 q2) s). split; [apply combine_alpha|].
      apply (Permutation_in _ (Permutation_sym (sort_perm _))), in_map. unfold union_sites. apply nodup_In, in_or_app. rewrite !wp_sites by auto. exact H. }
  assert (Hg : 1 <= g <= 3) by (eapply tw_g; eauto). assert (Hh : 1 <= h <= 3) by (eapply tw_h; eauto).
  split; [|split; [|split; [|split; [|split]]]].
  - unfold mono_commutator. rewrite !mono_mul_ok by (auto; apply W1 || apply W2). cbn [bind m_paulis mk_mono m_coeff].
    rewrite (tw_coeff w1 q1 w2 q2 i j), (tw_coeff w2 q2 w1 q1 j i) by auto. reflexivity.
  - apply mono_key_ok. exact Sv.
  - rewrite has_identity by (apply Forall_map; exact Sv). destruct (Nat.eqb_spec g h) as [E|E].
    + assert (T0 : exists p, In p ps /\ p_alpha p = nth i q1 0) by (apply tw_in_s0; auto). destruct T0 as (p & Hp & Ep).
      assert (TL : (p_alpha p = nth i q1 0 /\ p_gamma p = gidx g h) \/ (p_alpha p <> nth i q1 0 /\ 1 <= p_gamma p <= 3)) by (apply (tw_letter w1 q1 w2 q2 i j); auto);
      destruct TL as [[_ Eg]|[Hn _]]; [|contradiction].
      apply existsb_exists. exists 0. split; [|reflexivity]. apply in_map_iff. exists p. split; [|exact Hp]. rewrite Eg.
      apply gidx_0; auto.
    + apply not_true_is_false. intros H. apply existsb_exists in H. destruct H as (x & Hx & Ex). apply Nat.eqb_eq in Ex. subst x.
      apply in_map_iff in Hx. destruct Hx as (p & Eg & Hp).
      assert (TL : (p_alpha p = nth i q1 0 /\ p_gamma p = gidx g h) \/ (p_alpha p <> nth i q1 0 /\ 1 <= p_gamma p <= 3)) by (apply (tw_letter w1 q1 w2 q2 i j); auto);
      destruct TL as [[_ Eg']|[_ Hn]]; [|lia].
      apply E. apply gidx_0; auto. congruence.
  - exact Ss.
  - apply NoDup_Permutation.
    + apply ss_lt_nodup. exact Ss.
    + assert (N1 : NoDup q1) by (apply ss_lt_nodup; auto). assert (N2 : NoDup q2) by (apply ss_lt_nodup; auto).
      assert (N3 : NoDup (remove Nat.eq_dec (nth i q1 0) q2)).
      { clear - N2. induction N2 as [|x l Hx Hn IH]; [constructor|]. simpl. destruct (Nat.eq_dec _ x); auto. constructor; auto.
        intros H. apply in_remove in H. tauto. }
      clear - N1 N3 Hone. revert N3 Hone. generalize (nth i q1 0) as s0. intros s0 N3 Hone.
      induction N1 as [|x l Hx Hn IH]; [exact N3|]. simpl. constructor.
      * intros H. apply in_app_or in H. destruct H as [H|H]; [contradiction|]. apply in_remove in H. destruct H as [H Hne].
        apply Hne, Hone; [left; auto|exact H].
      * apply IH. intros s H1 H2. apply Hone; [right; auto|auto].
    + intros s. rewrite Hmem, in_app_iff. split; intros [H|H]; auto.
      * destruct (Nat.eq_dec s (nth i q1 0)) as [->|Hn]; [left; apply nth_In; auto|]. right. apply in_in_remove; auto.
      * right. apply in_remove in H. tauto.
  - intros Hne. apply Forall_map, Forall_forall. intros p Hp.
    assert (TL : (p_alpha p = nth i q1 0 /\ p_gamma p = gidx g h) \/ (p_alpha p <> nth i q1 0 /\ 1 <= p_gamma p <= 3)) by (apply (tw_letter w1 q1 w2 q2 i j); auto);
      destruct TL as [[_ Eg]|[_ Hn]]; [|exact Hn].
    
    assert (gidx g h <> 0) by (intros E; apply Hne, gidx_0; auto). rewrite Eg. pose proof (gidx_le g h ltac:(lia) ltac:(lia)). lia.
Qed.

Section Scalars.
Context {K : Type} {SR : StarRing K}.
Add Ring KrComm : (@k_ring K SR).
Lemma ksub_mul_l (a b c : K) : ksub (kmul a c) (kmul b c) = kmul (ksub a b) c.
Proof. ring. Qed.
End Scalars.

(** letters of the words on all n sites *)
Lemma place_word_le n q w : Forall (fun g => 1 <= g <= 3) w -> Forall (fun g => g <= 3) (place n q w).
Proof.
  intros H. eapply Forall_impl; [|apply (place_letters n q w 4); [|lia]]; simpl; [intros; lia|].
  eapply Forall_impl; [|exact H]. simpl. intros; lia.
Qed.

Lemma comm_operator {K} {SR : StarRing K} n w1 q1 w2 q2 i j :
  Forall (fun g => 1 <= g <= 3) w1 -> Forall (fun g => 1 <= g <= 3) w2 ->
  List.length q1 = List.length w1 -> List.length q2 = List.length w2 -> StronglySorted lt q1 -> StronglySorted lt q2 ->
  Forall (fun s => s < n) q1 -> Forall (fun s => s < n) q2 ->
  i < List.length q1 -> j < List.length q2 -> nth i q1 0 = nth j q2 0 -> (forall s, In s q1 -> In s q2 -> s = nth i q1 0) ->
  let g := nth i w1 0 in let h := nth j w2 0 in
  let ps := prod_ps w1 q1 w2 q2 in
  let A := pword (place n q1 w1) in let B := pword (place n q2 w2) in
  meq (2 ^ n) (msub (mmul (2 ^ n) A B) (mmul (2 ^ n) B A))
    (mscale (ksub (gphase g h) (gphase h g)) (pword (place n (sites ps) (map p_gamma ps)))).
Proof.
  intros Hw1 Hw2 Hl1 Hl2 Hs1 Hs2 Hb1 Hb2 Hi Hj Hij Hone g h ps A B.
  assert (N1 : NoDup q1) by (apply ss_lt_nodup; auto). assert (N2 : NoDup q2) by (apply ss_lt_nodup; auto).
  set (s0 := nth i q1 0). assert (Hs0 : s0 < n) by (rewrite Forall_forall in Hb1; apply Hb1, nth_In; auto).
  assert (P1 : nth s0 (place n q1 w1) 0 = g). { rewrite nth_place by auto. unfold s0. rewrite index_of_nth by auto. reflexivity. }
  assert (P2 : nth s0 (place n q2 w2) 0 = h). { rewrite nth_place by auto. unfold s0. rewrite Hij, index_of_nth by auto. reflexivity. }
  assert (Po : forall s, s < n -> s <> s0 -> nth s (place n q1 w1) 0 = 0 \/ nth s (place n q2 w2) 0 = 0).
  { intros s Hs Hn. rewrite !nth_place by auto. destruct (index_of s q1) as [a|] eqn:E1; [|auto]. destruct (index_of s q2) as [b|] eqn:E2; [|auto].
    exfalso. apply Hn, Hone; [apply index_of_Some, nth_error_In in E1|apply index_of_Some, nth_error_In in E2]; auto. }
  assert (C1 : kprod (K := K) (fun p => gphase (nth p (place n q1 w1) 0) (nth p (place n q2 w2) 0)) (seq 0 n) = gphase g h).
  { rewrite (kprod_single _ _ s0); [rewrite P1, P2; reflexivity|apply seq_NoDup|apply in_seq; lia|].
    intros x Hx Hn. apply in_seq in Hx. destruct (Po x) as [E|E]; [lia|auto| |]; rewrite E; [|apply gphase_0_r].
    destruct (nth x (place n q2 w2) 0) as [|[|[|[|?]]]]; reflexivity. }
  assert (C2 : kprod (K := K) (fun p => gphase (nth p (place n q2 w2) 0) (nth p (place n q1 w1) 0)) (seq 0 n) = gphase h g).
  { rewrite (kprod_single _ _ s0); [rewrite P1, P2; reflexivity|apply seq_NoDup|apply in_seq; lia|].
    intros x Hx Hn. apply in_seq in Hx. destruct (Po x) as [E|E]; [lia|auto| |]; rewrite E; [apply gphase_0_r|].
    destruct (nth x (place n q1 w1) 0) as [|[|[|[|?]]]]; reflexivity. }
  assert (Ev : map (fun p => gidx (nth p (place n q1 w1) 0) (nth p (place n q2 w2) 0)) (seq 0 n) = place n (sites ps) (map p_gamma ps)).
  { unfold place at 3. apply map_ext_in. intros s Hs. apply in_seq in Hs. rewrite !nth_place by lia.
    assert (El : match index_of s (sites ps) with Some k => nth k (map p_gamma ps) 0 | None => 0 end =
                 match look ps s with Some p => p_gamma p | None => 0 end).
    { clear. generalize ps as l. clear. induction l as [|p l IH]; [reflexivity|]. unfold sites, look in *. cbn [map index_of find].
      rewrite Nat.eqb_sym. destruct (Nat.eqb_spec (p_alpha p) s); [reflexivity|].
      rewrite <- IH. destruct (index_of s (map p_alpha l)); reflexivity. }
    rewrite El.
    destruct (key_mono_ok w1 q1 Hw1 Hl1 Hs1) as [_ W1]. destruct (key_mono_ok w2 q2 Hw2 Hl2 Hs2) as [_ W2].
    change ps with (prod_paulis (mk_mono (wp w1 q1)) (mk_mono (wp w2 q2))). rewrite look_prod. cbn [m_paulis mk_mono]. unfold combine_at.
    rewrite !look_wp by auto. clear. destruct (index_of s q1) as [a|], (index_of s q2) as [b|]; cbn [p_gamma wpauli fst pm]; auto.
    destruct (nth a w1 0) as [|[|[|[|?]]]]; reflexivity. }
  assert (Ev2 : map (fun p => gidx (nth p (place n q2 w2) 0) (nth p (place n q1 w1) 0)) (seq 0 n) = place n (sites ps) (map p_gamma ps)).
  { rewrite <- Ev. apply map_ext. intros p. apply gidx_comm. }
  unfold A, B. rewrite !pword_mul by (auto using place_length, place_word_le). rewrite C1, C2, Ev, Ev2.
  intros r c _ _. unfold msub, mscale. apply ksub_mul_l.
Qed.

(** the recorded sign *)
Lemma comm_sign ps g h : 1 <= g <= 3 -> 1 <= h <= 3 -> g <> h ->
  let m := set_coeff (mk_mono ps) (gsub (gphase (SR := GaussQ) g h) (gphase (SR := GaussQ) h g)) in
  (imag_coeff m = 2%R \/ imag_coeff m = (-2)%R) /\
  ksub (gphase (SR := CStar) g h) (gphase (SR := CStar) h g) = Cmult Ci (RtoC (imag_coeff m)).
Proof.
  intros Hg Hh Hn m.
  destruct g as [|[|[|[|g]]]]; try lia; destruct h as [|[|[|[|h]]]]; try lia; unfold m, imag_coeff; cbn -[Q2R];
  match goal with |- context [Q2R ?q] => let v := eval vm_compute in q in change q with v end; unfold Q2R; cbn -[Rinv IZR];
  (split; [first [left; lra|right; lra]|]); apply C_ext; cbn; lra.
Qed.
