(** Proofs about the model of oranssi/utils.py. *)
From Coq Require Import List Arith Lia Bool String Ascii Permutation Sorted Reals Lra Ring Setoid Morphisms.
From Coquelicot Require Import Coquelicot.
From Verif Require Import Py StarRing Matrix Cplx PauliSpec Bits PauliBasis UtilsModel.
From Coq Require Import List.
Import ListNotations.
Local Open Scope nat_scope.
Local Notation Str := Coq.Strings.String.String.

(** ** Specification vocabulary *)

(** the letter of a Pauli index 0..3 and the name of a word *)
Definition letter (g : nat) : ascii :=
  match g with 0 => "I" | 1 => "X" | 2 => "Y" | _ => "Z" end%char.
Definition word_name (w : list nat) : string := fold_right (fun g s => Str (letter g) s) EmptyString w.

(** the number of letters of the alphabet and its first letter *)
Definition alpha (identity : bool) : nat := if identity then 4 else 3.
Definition first (identity : bool) : nat := if identity then 0 else 1.

(** the n base-b digits of i, most significant first, shifted into the alphabet *)
Definition index_word (identity : bool) (n i : nat) : list nat :=
  map (fun j => (i / alpha identity ^ (n - 1 - j)) mod alpha identity + first identity) (seq 0 n).

Definition name_lt (a b : string) : Prop := String.compare a b = Lt.

(** ** Enumeration *)

Lemma flat_map_flat_map {A B C} (F : B -> list C) (G : A -> list B) l :
  flat_map F (flat_map G l) = flat_map (fun g => flat_map F (G g)) l.
Proof. induction l as [|a l IH]; simpl; [auto|]. rewrite flat_map_app, IH. auto. Qed.

Lemma words_snoc m n : words m (S n) = flat_map (fun t => map (fun x => t ++ [x]) (seq 0 m)) (words m n).
Proof.
  induction n as [|n IH].
  - simpl. rewrite app_nil_r. generalize (seq 0 m) as l. induction l as [|x l IHl]; simpl; [auto|rewrite IHl; auto].
  - change (words m (S (S n))) with (flat_map (fun g => map (cons g) (words m (S n))) (seq 0 m)).
    transitivity (flat_map (fun t => map (fun x => t ++ [x]) (seq 0 m)) (flat_map (fun g => map (cons g) (words m n)) (seq 0 m))); [|reflexivity].
    rewrite IH, flat_map_flat_map. apply flat_map_ext. intros g.
    generalize (words m n) as ts. induction ts as [|t ts IHt]; simpl; [auto|].
    rewrite map_app, IHt, map_map. auto.
Qed.

Lemma it_product_words m n : it_product m n = words m n.
Proof. induction n as [|n IH]; [reflexivity|]. rewrite words_snoc. simpl. rewrite IH. auto. Qed.

Lemma nth_error_blocks {A B} (f : A -> list B) m l i :
  0 < m -> (forall a, List.length (f a) = m) ->
  nth_error (flat_map f l) i = match nth_error l (i / m) with Some a => nth_error (f a) (i mod m) | None => None end.
Proof.
  intros Hm Hf. revert i. induction l as [|a l IH]; intros i; simpl.
  - destruct i, (_ / _); auto.
  - destruct (Nat.lt_ge_cases i m) as [H|H].
    + rewrite nth_error_app1 by (rewrite Hf; auto). rewrite Nat.div_small, Nat.mod_small by auto. auto.
    + rewrite nth_error_app2 by (rewrite Hf; auto). rewrite Hf, IH.
      assert (E : i / m = S ((i - m) / m)).
      { replace i with ((i - m) + 1 * m) at 1 by lia. rewrite Nat.div_add by lia. lia. }
      assert (E' : i mod m = (i - m) mod m).
      { replace i with ((i - m) + 1 * m) at 1 by lia. rewrite Nat.mod_add by lia. auto. }
      rewrite E, E'. auto.
Qed.

Definition digits (m n i : nat) : list nat := map (fun j => (i / m ^ (n - 1 - j)) mod m) (seq 0 n).

Lemma digits_S m n i : 0 < m -> digits m (S n) i = digits m n (i / m) ++ [i mod m].
Proof.
  intros Hm. unfold digits. rewrite seq_S, map_app. f_equal.
  - apply map_ext_in. intros j Hj. apply in_seq in Hj.
    replace (S n - 1 - j) with (S (n - 1 - j)) by lia. simpl. rewrite Nat.div_div; [auto|lia|].
    apply Nat.pow_nonzero; lia.
  - cbn [map]. replace (S n - 1 - (0 + n)) with 0 by lia. rewrite Nat.pow_0_r, Nat.div_1_r. auto.
Qed.

Lemma nth_words m n : 0 < m -> forall i, i < m ^ n -> nth_error (words m n) i = Some (digits m n i).
Proof.
  intros Hm. induction n as [|n IH]; intros i Hi.
  - simpl in Hi. replace i with 0 by lia. reflexivity.
  - rewrite words_snoc, (nth_error_blocks _ m); auto; [|intros; rewrite map_length, seq_length; auto].
    rewrite IH; [|apply Nat.div_lt_upper_bound; [lia|]; simpl in Hi; auto].
    rewrite nth_error_map.
    assert (H : i mod m < m) by (apply Nat.mod_upper_bound; lia).
    rewrite (nth_error_nth' _ 0) by (rewrite seq_length; auto). rewrite seq_nth by auto. simpl.
    rewrite digits_S by auto. auto.
Qed.

(** ** Names *)

Lemma concat_singletons (l : list ascii) :
  String.concat "" (map (fun c => Str c EmptyString) l) = fold_right Str EmptyString l.
Proof.
  induction l as [|c l IH]; [reflexivity|]. cbn [map fold_right]. rewrite <- IH.
  destruct l; reflexivity.
Qed.

Lemma join_name_ok identity comb : Forall (fun g => g < alpha identity) comb ->
  join_name identity comb = Ok (word_name (map (fun g => g + first identity) comb)).
Proof.
  intros H. unfold join_name.
  assert (E : mapM (if identity then pauli_int_to_str_id else pauli_int_to_str) comb
    = Ok (map (fun c => Str c EmptyString) (map (fun g => letter (g + first identity)) comb))).
  { induction H as [|g l Hg Hl IH]; [reflexivity|]. simpl. rewrite IH.
    destruct identity; unfold alpha in Hg; simpl;
    do 4 (destruct g as [|g]; [try reflexivity; lia|]); lia. }
  rewrite E. unfold bind. rewrite concat_singletons. f_equal. unfold word_name.
  clear. induction comb as [|g l IH]; simpl; auto. rewrite IH; auto.
Qed.

Lemma ascii_cmp_refl c : Ascii.compare c c = Eq.
Proof. unfold Ascii.compare. apply BinNat.N.compare_refl. Qed.

Lemma StronglySorted_map {A B} (f : A -> B) (R : A -> A -> Prop) (Q : B -> B -> Prop) l :
  (forall x y, R x y -> Q (f x) (f y)) -> StronglySorted R l -> StronglySorted Q (map f l).
Proof.
  intros H. induction 1 as [|a l Hs IH Hf]; simpl; constructor; auto.
  rewrite Forall_map. eapply Forall_impl; [|exact Hf]. auto.
Qed.

Lemma StronglySorted_app_intro {A} (R : A -> A -> Prop) l1 l2 :
  StronglySorted R l1 -> StronglySorted R l2 -> (forall x y, In x l1 -> In y l2 -> R x y) ->
  StronglySorted R (l1 ++ l2).
Proof.
  induction 1 as [|a l Hs IH Hf]; simpl; intros H2 H; auto. constructor.
  - apply IH; auto.
  - apply Forall_app; split; auto. apply Forall_forall. intros y Hy. apply H; auto.
Qed.

Lemma names_sorted f m n : (forall a b, a < b -> b < m -> Ascii.compare (letter (f a)) (letter (f b)) = Lt) ->
  StronglySorted name_lt (map (fun w => word_name (map f w)) (words m n)).
Proof.
  intros Hf. induction n as [|n IH]; [simpl; constructor; [constructor|constructor]|].
  simpl.
  assert (G : forall k s, s + k <= m ->
    StronglySorted name_lt (map (fun w => word_name (map f w)) (flat_map (fun g => map (cons g) (words m n)) (seq s k)))).
  { induction k as [|k IHk]; intros s Hs; simpl; [constructor|].
    rewrite map_app. apply StronglySorted_app_intro.
    - rewrite map_map. rewrite <- (map_map (fun w => word_name (map f w)) (fun s' => Str (letter (f s)) s')).
      eapply StronglySorted_map; [|exact IH]. unfold name_lt. intros x y H. simpl.
      rewrite ascii_cmp_refl. auto.
    - apply IHk. lia.
    - intros x y Hx Hy. rewrite map_map in Hx. apply in_map_iff in Hx. destruct Hx as (w & <- & _).
      apply in_map_iff in Hy. destruct Hy as (v & <- & Hv). apply in_flat_map in Hv.
      destruct Hv as (g & Hg & Hv). apply in_seq in Hg. apply in_map_iff in Hv. destruct Hv as (u & <- & _).
      unfold name_lt. simpl. rewrite Hf by lia. auto. }
  apply G. lia.
Qed.

Lemma name_lt_irrefl x : ~ name_lt x x.
Proof. unfold name_lt. induction x as [|c x IH]; simpl; [discriminate|]. rewrite ascii_cmp_refl. auto. Qed.

Lemma sorted_NoDup l : StronglySorted name_lt l -> NoDup l.
Proof.
  induction 1 as [|a l Hs IH Hf]; constructor; auto. intros Hi.
  rewrite Forall_forall in Hf. apply (name_lt_irrefl a); auto.
Qed.

(** ** Operators *)

Section S.
Context {K : Type} {SR : StarRing K}.
Add Ring Kr : (@k_ring K SR).
Local Open Scope K_scope.

Lemma kron_assoc d2 d3 (A B C : mat K) i j : (d2 <> 0)%nat -> (d3 <> 0)%nat ->
  kron d3 (kron d2 A B) C i j = kron (d2 * d3) A (kron d3 B C) i j.
Proof.
  intros H2 H3. unfold kron.
  assert (E : forall x, (x / d3 / d2 = x / (d2 * d3) /\ (x / d3) mod d2 = (x mod (d2 * d3)) / d3 /\ x mod d3 = (x mod (d2 * d3)) mod d3)%nat).
  { intros x. rewrite (Nat.mul_comm d2 d3). split; [apply Nat.div_div; auto|].
    rewrite Nat.mod_mul_r by auto. split.
    - rewrite (Nat.mul_comm d3), Nat.div_add by auto. rewrite (Nat.div_small (x mod d3)) by (apply Nat.mod_upper_bound; auto). auto.
    - rewrite (Nat.mul_comm d3), Nat.mod_add by auto. rewrite Nat.mod_mod by auto. auto. }
  destruct (E i) as (-> & -> & ->). destruct (E j) as (-> & -> & ->). ring.
Qed.

(** the literal of an index in the alphabet *)
Definition lit (identity : bool) (g : nat) : arr K := nth g (paulis_of identity) lit_I.

Lemma lit_sigma identity g : (g < alpha identity)%nat ->
  a_rows (lit identity g) = 2%nat /\ a_cols (lit identity g) = 2%nat /\
  meq 2 (a_ent (lit identity g)) (sigma (g + first identity)).
Proof.
  intros H. destruct identity; unfold alpha in H;
  do 4 (destruct g as [|g]; [first [lia | split; [reflexivity|split; [reflexivity|]]; intros i j Hi Hj;
    destruct i as [|[|i]]; try lia; destruct j as [|[|j]]; try lia; reflexivity]|]); lia.
Qed.

Definition kron_fold (identity : bool) (comb : list nat) (op : arr K) : arr K :=
  fold_left (fun o c => np_kron o (lit identity c)) comb op.

Lemma list_get_lit identity g : (g < alpha identity)%nat -> list_get (paulis_of identity) g = Ok (lit identity g).
Proof.
  intros H. unfold list_get. rewrite (nth_error_nth' _ lit_I); auto. destruct identity; auto.
Qed.

Lemma kron_loop_ok identity comb ns op : Forall (fun g => g < alpha identity)%nat comb ->
  Forall (fun n => n < List.length comb)%nat ns ->
  kron_loop (paulis_of identity) comb ns op = Ok (kron_fold identity (map (fun n => nth n comb 0%nat) ns) op).
Proof.
  intros Hc. revert op. induction ns as [|n r IH]; intros op Hn; simpl; auto.
  inversion Hn; subst. unfold list_get at 1. rewrite (nth_error_nth' _ 0%nat) by auto. simpl.
  rewrite list_get_lit by (rewrite Forall_forall in Hc; apply Hc, nth_In; auto). simpl.
  rewrite IH by auto. reflexivity.
Qed.

Lemma kron_fold_spec identity comb : Forall (fun g => g < alpha identity)%nat comb -> forall op d,
  a_rows op = d -> a_cols op = d ->
  let r := kron_fold identity comb op in let m := List.length comb in
  a_rows r = (d * 2 ^ m)%nat /\ a_cols r = (d * 2 ^ m)%nat /\
  meq (d * 2 ^ m) (a_ent r) (kron (2 ^ m) (a_ent op) (pword (map (fun g => g + first identity)%nat comb))).
Proof.
  induction 1 as [|g comb Hg Hc IH]; intros op d Hr Hcol.
  - cbn zeta. change (2 ^ List.length (@nil nat))%nat with 1%nat. rewrite Nat.mul_1_r.
    split; [auto|split; [auto|]]. intros i j Hi Hj. unfold kron, pword. cbn [map kronl].
    rewrite !Nat.div_1_r, !Nat.mod_1_r, mid_eq. unfold kron_fold. simpl. ring.
  - simpl. destruct (lit_sigma identity g Hg) as (L1 & L2 & L3).
    destruct (IH (np_kron op (lit identity g)) (d * 2)%nat) as (H1 & H2 & H3);
      [simpl; rewrite L1, Hr; auto|simpl; rewrite L2, Hcol; auto|].
    fold (kron_fold identity comb (np_kron op (lit identity g))).
    set (m := List.length comb) in *.
    replace (d * (2 ^ m + (2 ^ m + 0)))%nat with (d * 2 * 2 ^ m)%nat by lia.
    split; [auto|split; [auto|]]. rewrite H3.
    transitivity (kron (2 ^ m) (kron 2 (a_ent op) (sigma (g + first identity))) (pword (map (fun g => g + first identity)%nat comb))).
    + apply kron_proper; [|reflexivity].
      transitivity (kron 2 (a_ent op) (a_ent (lit identity g))).
      * intros i j Hi Hj. unfold np_kron; simpl. rewrite L1, L2. unfold kron. reflexivity.
      * apply kron_proper; [reflexivity|auto].
    + intros i j Hi Hj. rewrite kron_assoc by (try lia; apply pow2_nz).
      unfold pword. cbn [map kronl]. rewrite !map_length. fold m. f_equal.
Qed.

Lemma kron_one d (A : mat K) : (0 < d)%nat -> meq d (kron d (a_ent (np_eye 1)) A) A.
Proof.
  intros Hd i j Hi Hj. unfold kron. rewrite !Nat.div_small, !Nat.mod_small by auto. simpl. ring.
Qed.

Definition su_op (identity : bool) (comb : list nat) : arr K := kron_fold identity comb (np_eye 1).

Lemma su_op_spec identity n comb : In comb (words (alpha identity) n) ->
  a_rows (su_op identity comb) = (2 ^ n)%nat /\ a_cols (su_op identity comb) = (2 ^ n)%nat /\
  meq (2 ^ n) (a_ent (su_op identity comb)) (pword (map (fun g => g + first identity)%nat comb)).
Proof.
  intros H. apply words_spec in H. destruct H as [<- H].
  destruct (kron_fold_spec identity comb H (np_eye 1) 1 eq_refl eq_refl) as (H1 & H2 & H3).
  unfold su_op. rewrite H1, H2. rewrite Nat.mul_1_l in *. split; [auto|split; [auto|]].
  rewrite H3. apply kron_one. apply pow2_pos.
Qed.

Lemma paulis_length identity : List.length (@paulis_of K SR identity) = alpha identity.
Proof. destruct identity; auto. Qed.

Lemma int_log2_pow n : int_log2 (2 ^ n) = Ok n.
Proof.
  unfold int_log2. destruct (2 ^ n)%nat eqn:E; [exfalso; eapply pow2_nz; eauto|]. rewrite <- E, Nat.log2_pow2 by lia. auto.
Qed.

Lemma su_n_eq N identity names : (0 < N)%nat ->
  get_su_n_operators N identity names =
  Ok (map (su_op identity) (words (alpha identity) (Nat.log2 N)),
      if names then Some (map (fun w => word_name (map (fun g => g + first identity)%nat w)) (words (alpha identity) (Nat.log2 N))) else None).
Proof.
  intros HN. unfold get_su_n_operators. unfold int_log2. destruct N as [|N]; [lia|]. simpl bind.
  rewrite paulis_length, it_product_words. set (n := Nat.log2 (S N)).
  rewrite (mapM_ok _ (su_op identity)).
  2:{ intros comb H. apply words_spec in H. destruct H as [Hl H].
      rewrite kron_loop_ok by (auto; apply Forall_forall; intros x Hx; apply in_seq in Hx; lia).
      rewrite <- Hl, map_nth_self. reflexivity. }
  simpl bind. destruct names; [|reflexivity].
  rewrite (mapM_ok _ (fun w => word_name (map (fun g => g + first identity)%nat w))).
  2:{ intros comb H. apply words_spec in H. destruct H as [_ H]. apply join_name_ok; auto. }
  reflexivity.
Qed.

Lemma su_n_spec n identity : let b := alpha identity in
  exists ops names,
    get_su_n_operators (2 ^ n) identity true = Ok (ops, Some names) /\
    get_su_n_operators (2 ^ n) identity false = Ok (ops, None) /\
    List.length ops = (b ^ n)%nat /\ List.length names = (b ^ n)%nat /\
    StronglySorted name_lt names /\ NoDup names /\
    forall i, (i < b ^ n)%nat -> exists op,
      nth_error ops i = Some op /\ a_rows op = (2 ^ n)%nat /\ a_cols op = (2 ^ n)%nat /\
      meq (2 ^ n) (a_ent op) (pword (index_word identity n i)) /\
      nth_error names i = Some (word_name (index_word identity n i)).
Proof.
  intros b. do 2 eexists.
  rewrite !su_n_eq by apply pow2_pos. rewrite Nat.log2_pow2 by lia.
  split; [reflexivity|]. split; [reflexivity|].
  split; [rewrite map_length, words_length; auto|].
  split; [rewrite map_length, words_length; auto|].
  assert (Hs : StronglySorted name_lt (map (fun w => word_name (map (fun g => g + first identity)%nat w)) (words (alpha identity) n))).
  { apply names_sorted. intros x y Hxy Hy. destruct identity; unfold alpha in Hy; simpl in *;
    do 4 (destruct x as [|x]; [do 4 (destruct y as [|y]; [try lia; reflexivity|]); lia|]); lia. }
  split; [auto|]. split; [apply sorted_NoDup; auto|].
  intros i Hi. exists (su_op identity (digits (alpha identity) n i)).
  assert (Hn : nth_error (words (alpha identity) n) i = Some (digits (alpha identity) n i)).
  { apply nth_words; auto. destruct identity; unfold alpha; lia. }
  assert (Hin : In (digits (alpha identity) n i) (words (alpha identity) n)) by (eapply nth_error_In; eauto).
  destruct (su_op_spec identity n _ Hin) as (H1 & H2 & H3).
  assert (E : map (fun g => g + first identity)%nat (digits (alpha identity) n i) = index_word identity n i).
  { unfold digits, index_word. rewrite map_map. auto. }
  rewrite !nth_error_map, Hn. simpl. rewrite E in *. repeat split; auto.
Qed.

(** two returned arrays that are the same array *)
Definition arr_eq (A B : arr K) : Prop :=
  a_rows A = a_rows B /\ a_cols A = a_cols B /\
  forall i j, (i < a_rows A)%nat -> (j < a_cols A)%nat -> a_ent A i j = a_ent B i j.

Definition su_same (x y : su_result (K:=K)) : Prop := Forall2 arr_eq (fst x) (fst y) /\ snd x = snd y.

Lemma su_2_is_n1 identity names :
  exists r, get_su_n_operators 2 identity names = Ok r /\ su_same (get_su_2_operators identity names) r.
Proof.
  eexists; split; [rewrite su_n_eq by lia; reflexivity|].
  destruct identity, names; unfold su_same; (split; [|reflexivity]); unfold fst, get_su_2_operators, paulis_of;
  simpl Nat.log2; cbn [words seq flat_map map app alpha]; repeat constructor; try reflexivity;
  intros i j Hi Hj; simpl in Hi, Hj;
  destruct i as [|[|i]]; try lia; destruct j as [|[|j]]; try lia; simpl; ring.
Qed.

Lemma np_kron_assoc1 (A B : arr K) : a_rows A <> 0%nat -> a_cols A <> 0%nat ->
  a_rows B <> 0%nat -> a_cols B <> 0%nat ->
  arr_eq (np_kron A B) (np_kron (np_kron (np_eye 1) A) B).
Proof.
  intros HA1 HA2 HB1 HB2. split; [simpl; lia|split; [simpl; lia|]].
  intros i j Hi Hj. simpl in *.
  assert (Hi' : (i / a_rows B < a_rows A)%nat) by (apply Nat.div_lt_upper_bound; lia).
  assert (Hj' : (j / a_cols B < a_cols A)%nat) by (apply Nat.div_lt_upper_bound; lia).
  rewrite (Nat.div_small (i / a_rows B)), (Nat.div_small (j / a_cols B)) by auto.
  rewrite (Nat.mod_small (i / a_rows B)), (Nat.mod_small (j / a_cols B)) by auto.
  simpl. ring.
Qed.

Lemma su_4_is_n2 identity names :
  exists r r', get_su_4_operators identity names = Ok r /\ get_su_n_operators 4 identity names = Ok r' /\ su_same r r'.
Proof.
  do 2 eexists. split; [|split; [rewrite su_n_eq by lia; reflexivity|]].
  - unfold get_su_4_operators. rewrite paulis_length, it_product_words.
    rewrite (mapM_ok _ (fun c => np_kron (lit identity (nth 0 c 0%nat)) (lit identity (nth 1 c 0%nat)))).
    2:{ intros c Hc. apply words_spec in Hc. destruct Hc as [Hl Hc]. destruct c as [|a [|b [|]]]; try discriminate.
        inversion Hc as [|? ? Ha Hc']; subst. inversion Hc' as [|? ? Hb]; subst.
        change (list_get [a; b] 0) with (Ok a). change (list_get [a; b] 1) with (Ok b). cbn [bind]. rewrite (list_get_lit identity a), (list_get_lit identity b) by auto. reflexivity. }
    cbn [bind].
    rewrite (mapM_ok _ (fun w => word_name (map (fun g => g + first identity)%nat w))).
    2:{ intros comb H. apply words_spec in H. destruct H as [_ H]. apply join_name_ok; auto. }
    instantiate (1 := (map (fun c => np_kron (lit identity (nth 0 c 0%nat)) (lit identity (nth 1 c 0%nat))) (words (alpha identity) 2),
       if names then Some (map (fun w => word_name (map (fun g => g + first identity)%nat w)) (words (alpha identity) 2)) else None)).
    destruct names; reflexivity.
  - unfold su_same, fst, snd. change (Nat.log2 4) with 2%nat. split; [|reflexivity].
    assert (G : forall l, incl l (words (alpha identity) 2) ->
      Forall2 arr_eq (map (fun c => np_kron (lit identity (nth 0 c 0%nat)) (lit identity (nth 1 c 0%nat))) l) (map (su_op identity) l)).
    { induction l as [|c l IH]; intros Hi; simpl; constructor; [|apply IH; intros x Hx; apply Hi; right; auto].
      assert (Hc : In c (words (alpha identity) 2)) by (apply Hi; left; auto).
      apply words_spec in Hc. destruct Hc as [Hl Hc]. destruct c as [|a [|b [|]]]; try discriminate.
      inversion Hc as [|? ? Ha Hc']; subst. inversion Hc' as [|? ? Hb]; subst.
      destruct (lit_sigma identity a Ha) as (A1 & A2 & _), (lit_sigma identity b Hb) as (B1 & B2 & _).
      apply np_kron_assoc1; simpl; lia. }
    apply G, incl_refl.
Qed.

(** ** The returned operators as a family *)

Lemma index_word_In identity n i : (i < alpha identity ^ n)%nat ->
  List.length (index_word identity n i) = n /\ Forall (fun g => g <= 3)%nat (index_word identity n i).
Proof.
  intros _. split; [unfold index_word; rewrite map_length, seq_length; auto|].
  apply Forall_forall. intros g Hg. apply in_map_iff in Hg. destruct Hg as (j & <- & _).
  destruct identity; unfold alpha, first;
    [pose proof (Nat.mod_upper_bound (i / 4 ^ (n - 1 - j)) 4)|pose proof (Nat.mod_upper_bound (i / 3 ^ (n - 1 - j)) 3)]; lia.
Qed.

Lemma letter_inj g h : (g <= 3)%nat -> (h <= 3)%nat -> letter g = letter h -> g = h.
Proof.
  intros Hg Hh. do 4 (destruct g as [|g]; [do 4 (destruct h as [|h]; [try reflexivity; discriminate|]); lia|]); lia.
Qed.

Lemma word_name_inj w : forall v, Forall (fun g => g <= 3)%nat w -> Forall (fun g => g <= 3)%nat v ->
  word_name w = word_name v -> w = v.
Proof.
  induction w as [|g w IH]; intros [|h v] Hw Hv E; try discriminate; auto.
  inversion Hw; inversion Hv; subst. injection E as E1 E2. f_equal; [apply letter_inj; auto|apply IH; auto].
Qed.

Lemma forallb_zero w : forallb (Nat.eqb 0) w = true <-> w = repeat 0%nat (List.length w).
Proof.
  induction w as [|g w IH]; [simpl; tauto|]. cbn [forallb List.length repeat]. rewrite andb_true_iff, Nat.eqb_eq, IH. split.
  - intros [<- ->]. rewrite repeat_length. auto.
  - intros E. injection E; auto.
Qed.

(** Hermitian, involutive, traces of the operators and of products of two *)
Lemma su_n_family n identity (ops : list (arr K)) names :
  get_su_n_operators (2 ^ n) identity true = Ok (ops, Some names) ->
  forall i P nm, nth_error ops i = Some P -> nth_error names i = Some nm ->
    hermitian (2 ^ n) (a_ent P) /\ meq (2 ^ n) (mmul (2 ^ n) (a_ent P) (a_ent P)) mid /\
    (nm = word_name (repeat 0%nat n) -> mtrace (2 ^ n) (a_ent P) = knat (2 ^ n)) /\
    (nm <> word_name (repeat 0%nat n) -> mtrace (2 ^ n) (a_ent P) = 0) /\
    (forall j Q nm', nth_error ops j = Some Q -> nth_error names j = Some nm' -> nm <> nm' ->
       mtrace (2 ^ n) (mmul (2 ^ n) (a_ent P) (a_ent Q)) = 0).
Proof.
  intros E i P nm HP Hnm.
  destruct (su_n_spec n identity) as (ops' & names' & E' & _ & L1 & L2 & _ & _ & H).
  rewrite E in E'. injection E' as <- <-.
  assert (Hi : (i < alpha identity ^ n)%nat) by (rewrite <- L1; apply nth_error_Some; congruence).
  destruct (H i Hi) as (P' & HP' & _ & _ & M & Hn). rewrite HP in HP'. injection HP' as <-.
  rewrite Hnm in Hn. injection Hn as ->.
  destruct (index_word_In identity n i Hi) as [Lw Fw]. set (w := index_word identity n i) in *.
  split; [|split; [|split; [|split]]].
  - rewrite M. unfold hermitian. rewrite <- Lw. apply pword_herm; auto.
  - rewrite M. rewrite <- Lw. apply pword_sq; auto.
  - intros Ew. rewrite M. rewrite <- Lw, pword_trace by auto.
    apply word_name_inj in Ew; auto; [|apply Forall_forall; intros x Hx; apply repeat_spec in Hx; lia].
    destruct (forallb _ w) eqn:Ef; auto. exfalso. apply not_true_iff_false in Ef. apply Ef, forallb_zero. congruence.
  - intros Ew. rewrite M. rewrite <- Lw, pword_trace by auto.
    destruct (forallb _ w) eqn:Ef; auto. exfalso. apply forallb_zero in Ef. rewrite Lw in Ef. congruence.
  - intros j Q nm' HQ Hnm' Hne.
    assert (Hj : (j < alpha identity ^ n)%nat) by (rewrite <- L1; apply nth_error_Some; congruence).
    destruct (H j Hj) as (Q' & HQ' & _ & _ & N & Hn'). rewrite HQ in HQ'. injection HQ' as <-.
    rewrite Hnm' in Hn'. injection Hn' as ->.
    destruct (index_word_In identity n j Hj) as [Lv Fv]. rewrite M, N. rewrite <- Lw, pword_pair_trace by (auto; congruence).
    unfold weqb. destruct (list_eq_dec _ _ _) as [Ew|]; auto. exfalso. apply Hne. fold w. congruence.
Qed.

Lemma msum_proper {X} n (f g : X -> mat K) l : (forall x, In x l -> meq n (f x) (g x)) -> meq n (msum f l) (msum g l).
Proof. intros H i j Hi Hj. unfold msum. apply lsum_ext. intros x Hx. apply H; auto. Qed.

Lemma map_add0 w : map (fun g => g + first true)%nat w = w.
Proof. transitivity (map (fun g : nat => g) w); [|apply map_id]. apply map_ext. intros g. simpl. lia. Qed.

Lemma su_n_expansion n (A : mat K) : exists ops,
  get_su_n_operators (2 ^ n) true false = Ok (ops, None) /\
  meq (2 ^ n) (mscale (knat (2 ^ n)) A)
    (msum (fun P => mscale (mtrace (2 ^ n) (mmul (2 ^ n) (a_ent P) A)) (a_ent P)) ops).
Proof.
  eexists. rewrite su_n_eq by apply pow2_pos. rewrite Nat.log2_pow2 by lia. split; [reflexivity|].
  rewrite <- pauli_expansion. symmetry.
  transitivity (msum (fun w => mscale (mtrace (2 ^ n) (mmul (2 ^ n) (a_ent (su_op true w)) A)) (a_ent (su_op true w))) (words 4 n)).
  - intros i j Hi Hj. unfold msum. rewrite lsum_map. reflexivity.
  - apply msum_proper. intros w Hw. destruct (su_op_spec true n w Hw) as (_ & _ & M). rewrite map_add0 in M.
    rewrite M. reflexivity.
Qed.

End S.

(** ** The Frobenius norm *)

Local Open Scope R_scope.

(** sum of |M_ij|^2 *)
Definition frob2 (m n : nat) (M : mat C) : R :=
  rsum (fun i => rsum (fun j => Cmod (M i j) ^ 2) (seq 0 n)) (seq 0 m).

Lemma rsum_swap {A B} (f : A -> B -> R) l1 l2 :
  rsum (fun x => rsum (fun y => f x y) l2) l1 = rsum (fun y => rsum (fun x => f x y) l1) l2.
Proof.
  induction l1 as [|a l1 IH]; simpl.
  - rewrite rsum_const0. auto.
  - rewrite IH, <- rsum_plus. auto.
Qed.

Lemma Cmod2 z : Cmod z ^ 2 = Re z * Re z + Im z * Im z.
Proof.
  unfold Cmod. rewrite pow2_sqrt.
  - unfold Re, Im. ring.
  - apply Rplus_le_le_0_compat; apply pow2_ge_0.
Qed.

Lemma conj_mul_self z : Cmult (Cconj z) z = RtoC (Cmod z ^ 2).
Proof.
  apply C_ext; rewrite ?Cmod2; destruct z; unfold Re, Im; simpl; ring.
Qed.

Lemma frob2_nonneg m n M : 0 <= frob2 m n M.
Proof. apply rsum_nonneg; intros. apply rsum_nonneg; intros. apply pow2_ge_0. Qed.

Lemma csqrt_nonneg r : 0 <= r -> csqrt (RtoC r) = RtoC (sqrt r).
Proof.
  intros H. unfold csqrt. rewrite Cmod_R. rewrite Rabs_pos_eq by auto. unfold Re, Im; simpl.
  destruct (Rlt_dec 0 0); [lra|]. unfold RtoC. f_equal; [f_equal; lra|].
  replace ((r - r) / 2) with 0 by lra. apply sqrt_0.
Qed.

Lemma operator_2_norm_frob M : operator_2_norm M = sqrt (frob2 (a_rows M) (a_cols M) (a_ent M)).
Proof.
  unfold operator_2_norm. unfold frob2. rewrite rsum_swap.
  transitivity (Re (csqrt (RtoC (rsum (fun j => rsum (fun i => Cmod (a_ent M i j) ^ 2) (seq 0 (a_rows M))) (seq 0 (a_cols M)))))).
  - f_equal. f_equal. rewrite <- lsum_RtoC. apply lsum_ext. intros j _. rewrite <- lsum_RtoC. apply lsum_ext. intros i _.
    apply conj_mul_self.
  - rewrite csqrt_nonneg; [reflexivity|].
    apply rsum_nonneg; intros. apply rsum_nonneg; intros. apply pow2_ge_0.
Qed.

Lemma frob2_zero m n M : frob2 m n M = 0 <-> forall i j, (i < m)%nat -> (j < n)%nat -> M i j = RtoC 0.
Proof.
  split.
  - intros H i j Hi Hj. apply Cmod_eq_0.
    assert (H1 : rsum (fun j => Cmod (M i j) ^ 2) (seq 0 n) = 0).
    { apply (rsum_zero (fun i => rsum (fun j => Cmod (M i j) ^ 2) (seq 0 n)) (seq 0 m)); auto.
      - intros; apply rsum_nonneg; intros; apply pow2_ge_0.
      - apply in_seq; lia. }
    assert (H2 : Cmod (M i j) ^ 2 = 0).
    { apply (rsum_zero (fun j => Cmod (M i j) ^ 2) (seq 0 n)); auto; [intros; apply pow2_ge_0|apply in_seq; lia]. }
    simpl in H2. rewrite Rmult_1_r in H2. apply Rmult_integral in H2. tauto.
  - intros H. unfold frob2. rewrite <- (rsum_const0 (seq 0 m)). apply rsum_ext. intros i Hi. apply in_seq in Hi.
    rewrite <- (rsum_const0 (seq 0 n)). apply rsum_ext. intros j Hj. apply in_seq in Hj.
    rewrite H by lia. rewrite Cmod_0. ring.
Qed.

Lemma frob2_scale m n c M : frob2 m n (mscale (SR := CStar) c M) = Cmod c ^ 2 * frob2 m n M.
Proof.
  unfold frob2. rewrite <- rsum_scale. apply rsum_ext. intros i _. rewrite <- rsum_scale. apply rsum_ext. intros j _.
  unfold mscale. simpl kmul. rewrite Cmod_mult. ring.
Qed.

Lemma Cmod_Cconj z : Cmod (Cconj z) = Cmod z.
Proof. unfold Cmod. f_equal. destruct z. simpl. ring. Qed.

Lemma frob2_adj m n M : frob2 n m (madj (SR := CStar) M) = frob2 m n M.
Proof.
  unfold frob2. rewrite rsum_swap. apply rsum_ext; intros i _. apply rsum_ext; intros j _.
  unfold madj. simpl kconj. rewrite Cmod_Cconj. auto.
Qed.

Lemma frob2_lsum m n M : RtoC (frob2 m n M) =
  lsum (SR := CStar) (fun j => lsum (SR := CStar) (fun k => kmul (kconj (M k j)) (M k j)) (seq 0 m)) (seq 0 n).
Proof.
  unfold frob2. rewrite rsum_swap, <- lsum_RtoC. apply lsum_ext. intros j _.
  rewrite <- lsum_RtoC. apply lsum_ext. intros i _. symmetry. apply conj_mul_self.
Qed.

Lemma frob2_unitary_l m n U M : unitary (SR := CStar) m U -> frob2 m n (mmul m U M) = frob2 m n M.
Proof.
  intros HU. apply RtoC_inj. rewrite !frob2_lsum. apply lsum_ext. intros j _.
  unfold mmul. 
  transitivity (lsum (SR := CStar) (fun k => lsum (SR := CStar) (fun a => lsum (SR := CStar) (fun b =>
      kmul (kmul (kconj (M a j)) (M b j)) (kmul (kconj (U k a)) (U k b))) (seq 0 m)) (seq 0 m)) (seq 0 m)).
  { apply lsum_ext. intros k _. rewrite lsum_conj, <- lsum_scale_r. apply lsum_ext. intros a _.
    rewrite <- lsum_scale_l. apply lsum_ext. intros b _. rewrite kconj_mul. simpl kmul. ring. }
  rewrite lsum_swap. apply lsum_ext. intros a Ha. apply in_seq in Ha. rewrite lsum_swap.
  rewrite (lsum_single _ _ a).
  - rewrite lsum_scale_l.
    replace (lsum (fun k => kmul (kconj (U k a)) (U k a)) (seq 0 m)) with (RtoC 1); [simpl kmul; ring|].
    symmetry. specialize (HU a a). unfold mmul, madj in HU. rewrite HU by lia. apply (mid_eq (SR := CStar)).
  - apply seq_NoDup.
  - apply in_seq; lia.
  - intros b Hb Hne. apply in_seq in Hb. rewrite lsum_scale_l.
    replace (lsum (fun k => kmul (kconj (U k a)) (U k b)) (seq 0 m)) with (RtoC 0); [simpl kmul; simpl k0; ring|].
    symmetry. specialize (HU a b). unfold mmul, madj in HU. rewrite HU by lia. apply (mid_neq (SR := CStar)); auto.
Qed.

Lemma frob2_ext m n M N : (forall i j, (i < m)%nat -> (j < n)%nat -> M i j = N i j) -> frob2 m n M = frob2 m n N.
Proof.
  intros H. apply rsum_ext; intros i Hi. apply rsum_ext; intros j Hj. apply in_seq in Hi, Hj. rewrite H by lia. auto.
Qed.

(** for the factor on the right V V^dagger = 1 is what is needed *)
Lemma frob2_unitary_r m n V M : unitary (SR := CStar) n (madj V) -> frob2 m n (mmul n M V) = frob2 m n M.
Proof.
  intros HV. rewrite <- (frob2_adj m n), <- (frob2_adj m n M). rewrite <- (frob2_unitary_l n m (madj V) (madj M)) by auto.
  apply frob2_ext. intros i j _ _. unfold mmul, madj. rewrite lsum_conj. apply lsum_ext. intros k _.
  rewrite kconj_mul. simpl. ring.
Qed.

Lemma cauchy_schwarz {A} (f g : A -> R) l :
  rsum (fun x => f x * g x) l ^ 2 <= rsum (fun x => f x ^ 2) l * rsum (fun x => g x ^ 2) l.
Proof.
  induction l as [|a l IH]; cbn [rsum]; [lra|].
  set (P := rsum (fun x => f x * g x) l) in *. set (F := rsum (fun x => f x ^ 2) l) in *.
  set (G := rsum (fun x => g x ^ 2) l) in *.
  assert (HF : 0 <= F) by (apply rsum_nonneg; intros; apply pow2_ge_0).
  assert (HG : 0 <= G) by (apply rsum_nonneg; intros; apply pow2_ge_0).
  clearbody P F G. generalize (f a) as x. generalize (g a) as y. intros y x.
  assert (Hx : 0 <= x ^ 2) by apply pow2_ge_0. assert (Hy : 0 <= y ^ 2) by apply pow2_ge_0.
  assert (H : 2 * P * (x * y) <= F * y ^ 2 + G * x ^ 2).
  { assert (H0 : 0 <= F * y ^ 2 + G * x ^ 2).
    { apply Rplus_le_le_0_compat; apply Rmult_le_pos; auto. }
    destruct (Rle_dec (2 * P * (x * y)) 0); [lra|].
    apply Rsqr_incr_0_var; auto. unfold Rsqr.
    assert (H1 : 4 * (P ^ 2 * (x * y) ^ 2) <= 4 * (F * G * (x * y) ^ 2)).
    { apply Rmult_le_compat_l; [lra|]. apply Rmult_le_compat_r; [apply pow2_ge_0|auto]. }
    pose proof (pow2_ge_0 (F * y ^ 2 - G * x ^ 2)). nra. }
  nra.
Qed.

Lemma rsum_prod {A B} (f : A -> B -> R) l1 l2 :
  rsum (fun x => rsum (fun y => f x y) l2) l1 = rsum (fun p => f (fst p) (snd p)) (list_prod l1 l2).
Proof.
  induction l1 as [|a l1 IH]; simpl; auto. rewrite rsum_app, rsum_map, IH. auto.
Qed.

Lemma frob2_triangle m n M N :
  sqrt (frob2 m n (madd (SR := CStar) M N)) <= sqrt (frob2 m n M) + sqrt (frob2 m n N).
Proof.
  unfold frob2. rewrite !(rsum_prod (fun i j => Cmod (_ i j) ^ 2)).
  set (l := list_prod (seq 0 m) (seq 0 n)).
  set (f := fun p : nat * nat => Cmod (M (fst p) (snd p))). set (g := fun p : nat * nat => Cmod (N (fst p) (snd p))).
  change (rsum (fun p => Cmod (M (fst p) (snd p)) ^ 2) l) with (rsum (fun p => f p ^ 2) l).
  change (rsum (fun p => Cmod (N (fst p) (snd p)) ^ 2) l) with (rsum (fun p => g p ^ 2) l).
  set (F := rsum (fun p => f p ^ 2) l). set (G := rsum (fun p => g p ^ 2) l).
  assert (HF : 0 <= F) by (apply rsum_nonneg; intros; apply pow2_ge_0).
  assert (HG : 0 <= G) by (apply rsum_nonneg; intros; apply pow2_ge_0).
  apply Rsqr_incr_0_var; [|apply Rplus_le_le_0_compat; apply sqrt_pos].
  rewrite Rsqr_sqrt by (apply rsum_nonneg; intros; apply pow2_ge_0).
  rewrite Rsqr_plus, !Rsqr_sqrt by auto.
  apply Rle_trans with (rsum (fun p => f p ^ 2 + (g p ^ 2 + 2 * (f p * g p))) l).
  - apply rsum_le. intros p _. unfold madd. simpl kadd.
    pose proof (Cmod_triangle (M (fst p) (snd p)) (N (fst p) (snd p))) as T.
    pose proof (Cmod_ge_0 (M (fst p) (snd p) + N (fst p) (snd p))%C). fold (f p) (g p) in T.
    apply Rle_trans with ((f p + g p) ^ 2); [apply pow_incr; auto|]. right; ring.
  - rewrite (rsum_plus (fun p => f p ^ 2)), (rsum_plus (fun p => g p ^ 2)), (rsum_scale 2 (fun p => f p * g p)). fold F G.
    assert (H : rsum (fun p => f p * g p) l <= sqrt F * sqrt G).
    { apply Rsqr_incr_0_var; [|apply Rmult_le_pos; apply sqrt_pos].
      rewrite Rsqr_mult, !Rsqr_sqrt by auto. unfold Rsqr. pose proof (cauchy_schwarz f g l) as CS.
      fold F G in CS. simpl in CS. lra. }
    lra.
Qed.
