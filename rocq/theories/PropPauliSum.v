(** Properties C11-C15 and C17: PauliSum. *)
From Coq Require Import List Arith ZArith QArith Qcanon Bool Lia Permutation.
From Verif Require Import Py StarRing Matrix GaussQ PauliSpec PauliModel PauliSem PauliProofs PauliProofs2
  PauliSumModel PauliSumProofs PauliSumProofs2.
Import ListNotations.
Local Open Scope nat_scope.

Definition ex_z (c : gq) : mono := mk_mono [{| p_alpha := 0; p_gamma := 3; p_coeff := c |}].
Definition ex_heap : heap := heap_of [X0 g1; ex_z gi; X0 (gofQ (1 # 2)); ex_z gi].
Example ex_same_len : same_len ex_heap [0; 1; 2; 3].
Proof.
  intros r s Hr Hs. simpl in Hr, Hs.
  destruct Hr as [<-|[<-|[<-|[<-|[]]]]], Hs as [<-|[<-|[<-|[<-|[]]]]]; reflexivity.
Qed.

(** np.isclose(c, 0.0), independently of the model: |c|^2 <= (1e-8)^2 *)
Definition near_zero (c : gq) : Prop :=
  (gre c * gre c + gim c * gim c <= Q2Qc (1 # 10000000000000000))%Qc.
Lemma isclose0_near c : isclose0 c = true <-> near_zero c.
Proof.
  unfold isclose0, near_zero, gnorm2. destruct (Qclt_le_dec _ _) as [H|H]; split; auto; intros H'; [discriminate|].
  exfalso. apply (Qclt_not_le _ _ H H').
Qed.
Lemma isclose0_far c : isclose0 c = false <-> ~ near_zero c.
Proof. rewrite <- isclose0_near. destruct (isclose0 c); split; congruence. Qed.

(** the letters of a term with their sites *)
Definition word_of (m : mono) : list (nat * nat) := map (fun p => (p_alpha p, p_gamma p)) (m_paulis m).

(** C11 *)
Theorem C11_simplify_preserves_operator : forall ord h refs, reorders ord ->
  (same_len h refs ->
   exists h' refs' dropped, psum_init ord h refs = Ok (h', refs') /\
    incl refs' refs /\ incl dropped refs /\ length refs' + length dropped <= length refs /\
    (forall r, ~ In r refs -> h' r = h r) /\
    (forall r, m_paulis (h' r) = m_paulis (h r) /\ m_locs (h' r) = m_locs (h r)) /\
    (forall r, In r dropped -> near_zero (m_coeff (h' r))) /\
    forall n, meq (2 ^ n) (denote_sum n h refs)
                          (madd (denote_sum n h' refs') (denote_sum n h' dropped))) /\
  (~ same_len h refs -> psum_init ord h refs = Err AssertionError).
Proof.
  intros ord h refs Ho. destruct (psum_init_spec ord h refs Ho) as [H1 H2]. split; [|exact H2]. intros Hl.
  destruct (H1 Hl) as (h' & refs' & dr & E1 & E2 & E3 & E4 & E5 & E6 & E7 & E8). exists h', refs', dr.
  repeat (split; auto). intros r Hr. apply isclose0_near; auto.
Qed.
Print Assumptions C11_simplify_preserves_operator.

Example C11_case : same_len ex_heap [0; 1; 2; 3] /\
  exists h', psum_init (@rev nat) ex_heap [0; 1; 2; 3] = Ok (h', [0; 1]).
Proof. split; [exact ex_same_len|]. eexists. reflexivity. Qed.

(** C12: false *)
Theorem C12_no_duplicates_refuted :
  (exists h refs, (forall r, In r refs -> fresh (h r)) /\ NoDup refs /\ same_len h refs /\
    forall ord, reorders ord ->
      exists h' refs' r s, psum_init ord h refs = Ok (h', refs') /\ In r refs' /\ In s refs' /\
        r <> s /\ mono_eq (h' r) (h' s) = Ok true) /\
  (exists h refs, (forall r, In r refs -> fresh (h r)) /\ NoDup refs /\ same_len h refs /\
    forall ord, exists h' refs' r, psum_init ord h refs = Ok (h', refs') /\ In r refs' /\
      m_coeff (h' r) = g0).
Proof. exact simplify_refuted. Qed.
Print Assumptions C12_no_duplicates_refuted.

(** C12, what remains: no string occurs with both a real and a non-real coefficient
    ([unmixed]); zero terms are removed when some term occurred twice. *)
Theorem C12_no_duplicates_partial : forall ord h refs, reorders ord -> same_len h refs -> unmixed h refs ->
  exists h' refs', psum_init ord h refs = Ok (h', refs') /\ NoDup refs' /\
    NoDup (map (fun r => word_of (h' r)) refs') /\
    (has_equal h refs -> forall r, In r refs' -> ~ near_zero (m_coeff (h' r))).
Proof.
  intros ord h refs Ho Hl Hm. destruct (simplify_nodup_partial ord h refs Ho Hl Hm) as (h' & refs' & E1 & E2 & E3 & E4).
  exists h', refs'. split; [auto|]. split; [auto|]. split; [exact E3|].
  intros He r Hr. apply isclose0_far; auto.
Qed.
Print Assumptions C12_no_duplicates_partial.

Example C12_case : same_len ex_heap [0; 1; 2; 3] /\ unmixed ex_heap [0; 1; 2; 3] /\ has_equal ex_heap [0; 1; 2; 3].
Proof.
  split; [exact ex_same_len|]. split.
  - intros r s Hr Hs. simpl in Hr, Hs.
    destruct Hr as [<-|[<-|[<-|[<-|[]]]]], Hs as [<-|[<-|[<-|[<-|[]]]]]; intros H; try reflexivity; discriminate H.
  - exists 0, 2, 0, 2. repeat split; auto; lia.
Qed.

(** C13: false in its second half *)
Theorem C13_addition_mutates_refuted : exists h a b, (forall r, In r (a ++ b) -> fresh (h r)) /\ NoDup (a ++ b) /\
  exists h' refs', psum_add ord_id h a b = Ok (h', refs') /\
    ~ meq (2 ^ 1) (denote_sum 1 h' a) (denote_sum 1 h a).
Proof. exact psum_add_refuted. Qed.
Print Assumptions C13_addition_mutates_refuted.

(** C13, what remains: the value of A+B (any aliasing); the store is unchanged if no two terms are equal. *)
Theorem C13_addition_partial : forall ord h a b, reorders ord -> same_len h (a ++ b) ->
  (exists h' refs' dropped, psum_add ord h a b = Ok (h', refs') /\
    incl refs' (a ++ b) /\ incl dropped (a ++ b) /\
    (forall r, In r dropped -> near_zero (m_coeff (h' r))) /\
    forall n, meq (2 ^ n) (madd (denote_sum n h a) (denote_sum n h b))
                          (madd (denote_sum n h' refs') (denote_sum n h' dropped))) /\
  (~ has_equal h (a ++ b) -> psum_add ord h a b = Ok (h, a ++ b)).
Proof.
  intros ord h a b Ho Hl. destruct (psum_add_partial ord h a b Ho Hl) as [(h' & refs' & dr & E1 & E2 & E3 & E4 & E5) H2]. split; [|exact H2].
  exists h', refs', dr. repeat (split; auto). intros r Hr. apply isclose0_near; auto.
Qed.
Print Assumptions C13_addition_partial.

Example C13_case : same_len ex_heap ([0; 1] ++ [2; 3]) /\ same_len ex_heap ([0; 1] ++ [0; 1]).
Proof.
  split; [exact ex_same_len|]. intros r s Hr Hs. simpl in Hr, Hs.
  destruct Hr as [<-|[<-|[<-|[<-|[]]]]], Hs as [<-|[<-|[<-|[<-|[]]]]]; reflexivity.
Qed.

(** C14: false under aliasing, and the right operand is negated in place *)
Theorem C14_subtraction_refuted :
  (exists h a h' refs', (forall r, In r a -> fresh (h r)) /\ NoDup a /\
     psum_sub ord_id h a a = Ok (h', refs') /\
     meq (2 ^ 1) (denote_sum 1 h' refs') (mscale (gofQ (-2 # 1)) (denote_sum 1 h a)) /\
     ~ meq (2 ^ 1) (denote_sum 1 h' refs') mzero) /\
  (exists h a b h' refs', (forall r, In r (a ++ b) -> fresh (h r)) /\ NoDup (a ++ b) /\
     psum_sub ord_id h a b = Ok (h', refs') /\
     ~ meq (2 ^ 1) (denote_sum 1 h' b) (denote_sum 1 h b)).
Proof. exact psum_sub_refuted. Qed.
Print Assumptions C14_subtraction_refuted.

(** C14, what remains: the value of A-B when A and B share no monomial object. *)
Theorem C14_subtraction_partial : forall ord h a b, reorders ord -> same_len h (a ++ b) ->
  NoDup b -> (forall r, In r a -> ~ In r b) ->
  exists h' refs' dropped, psum_sub ord h a b = Ok (h', refs') /\
    incl refs' (a ++ b) /\ incl dropped (a ++ b) /\
    (forall r, In r dropped -> near_zero (m_coeff (h' r))) /\
    forall n, meq (2 ^ n) (msub (denote_sum n h a) (denote_sum n h b))
                          (madd (denote_sum n h' refs') (denote_sum n h' dropped)).
Proof.
  intros ord h a b Ho Hl Hn Hd. destruct (psum_sub_partial ord h a b Ho Hl Hn Hd) as (h' & refs' & dr & E1 & E2 & E3 & E4 & E5).
  exists h', refs', dr. repeat (split; auto). intros r Hr. apply isclose0_near; auto.
Qed.
Print Assumptions C14_subtraction_partial.

Example C14_case : NoDup [2; 3] /\ forall r, In r [0; 1] -> ~ In r [2; 3].
Proof. split; [repeat constructor; simpl; intuition lia|]. simpl; intros r H; lia. Qed.

(** C15: for terms that all have the same sites *)
Theorem C15_sum_product_partial : forall ordm ord h next a b n L, reorders ordm -> reorders ord ->
  (forall r, In r (a ++ b) -> r < next /\ fresh (h r) /\ m_locs (h r) = L /\ sites_below n (h r)) ->
  exists h' next' refs' dropped, psum_mul ordm ord h next a b = Ok (h', next', refs') /\
    (forall r, r < next -> h' r = h r) /\
    (forall r, In r (refs' ++ dropped) -> next <= r < next') /\
    (forall r, In r dropped -> near_zero (m_coeff (h' r))) /\
    meq (2 ^ n) (mmul (2 ^ n) (denote_sum n h a) (denote_sum n h b))
                (madd (denote_sum n h' refs') (denote_sum n h' dropped)).
Proof.
  intros ordm ord h next a b n L Hm Ho Hr. destruct (psum_mul_spec ordm ord h next a b n L Hm Ho Hr) as (h' & next' & refs' & dr & E1 & E2 & E3 & E4 & E5).
  exists h', next', refs', dr. repeat (split; auto). intros r Hr'. apply isclose0_near; auto.
Qed.
Print Assumptions C15_sum_product_partial.

Example C15_case : forall r, In r ([0; 1] ++ [2; 3]) ->
  r < 4 /\ fresh (ex_heap r) /\ m_locs (ex_heap r) = [0] /\ sites_below 2 (ex_heap r).
Proof.
  intros r Hr. simpl in Hr.
  destruct Hr as [<-|[<-|[<-|[<-|[]]]]]; (split; [lia|split; [apply single_fresh; lia|split;
    [reflexivity|repeat constructor; simpl; lia]]]).
Qed.

(** Terms on different sites: the product of two valid sums raises AssertionError. *)
Theorem C15_different_sites_refuted : exists h next a, (forall r, In r a -> r < next /\ fresh (h r)) /\ NoDup a /\
  psum_init ord_id h a = Ok (h, a) /\ psum_mul ord_id ord_id h next a a = Err AssertionError.
Proof. exact psum_mul_refuted. Qed.
Print Assumptions C15_different_sites_refuted.

(** C17 *)
Theorem C17_scalar_mul : forall h refs c, NoDup refs ->
  exists h', scalar_mul h refs (SNum c) = Ok h' /\
    (forall n, meq (2 ^ n) (denote_sum n h' refs) (mscale c (denote_sum n h refs))) /\
    (forall r, ~ In r refs -> h' r = h r) /\
    (forall r, m_paulis (h' r) = m_paulis (h r) /\ m_locs (h' r) = m_locs (h r)).
Proof. exact scalar_mul_spec. Qed.
Print Assumptions C17_scalar_mul.
(** any other type is rejected *)
Theorem C17_other_types : forall h refs, scalar_mul h refs SOther = Err AssertionError.
Proof. exact scalar_mul_type. Qed.
Print Assumptions C17_other_types.

Example C17_case : NoDup [0; 1; 2].
Proof. repeat constructor; simpl; intuition lia. Qed.
