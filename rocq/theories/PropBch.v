(** Property C89: the terms that bch_recusion collects. *)
From Coq Require Import List Arith ZArith QArith Qcanon Bool Lia Ring Setoid Morphisms.
From Verif Require Import Py StarRing Matrix GaussQ PauliSpec PauliModel PauliSem PauliProofs PauliProofs2 AlgGraphModel BchModel.
Import ListNotations.
Local Open Scope nat_scope.
Add Ring gq_ring_inst_bch : gq_ring.

(** ** Specification *)

(** [A,B] *)
Definition bracket (n : nat) (A B : mat gq) : mat gq := msub (mmul (2 ^ n) A B) (mmul (2 ^ n) B A).
(** the sum of the operators of a list of monomials *)
Definition total (n : nat) (l : list mono) : mat gq := msum (denote n) l.
(** the terms of degree two and three of log(exp X exp Y) *)
Definition bch2 (n : nat) (X Y : mat gq) : mat gq := mscale (gofQ (1 # 2)) (bracket n X Y).
Definition bch3 (n : nat) (X Y : mat gq) : mat gq :=
  mscale (gofQ (1 # 12)) (madd (bracket n X (bracket n X Y)) (bracket n Y (bracket n Y X))).

(** the product of the operators named by a word: [true] for X, [false] for Y *)
Fixpoint word_op (n : nat) (X Y : mat gq) (w : list bool) : mat gq :=
  match w with [] => mid | b :: w' => mmul (2 ^ n) (if b then X else Y) (word_op n X Y w') end.
(** 1/m! [X, W] or -1/m! [Y, W] for a word W of m-1 letters *)
Definition nested (n m : nat) (X Y T : mat gq) : Prop := exists b w, S (List.length w) = m /\
  meq (2 ^ n) T (mscale (gmul (if b : bool then g1 else gopp g1) (gofQ (1 # Pos.of_nat (fact m)))) (bracket n (if b then X else Y) (word_op n X Y w))).

(** ** Lemmas *)

Lemma total_app n l m : meq (2 ^ n) (total n (l ++ m)) (madd (total n l) (total n m)).
Proof.
  intros i j _ _. unfold total, msum, madd. induction l as [|a l IH]; simpl; [ring|]. rewrite IH. simpl. ring.
Qed.

(** the monomial objects met: a monomial of the constructor with another visible coefficient *)
Definition behind (n : nat) (t f : mono) : Prop := (exists c, t = set_coeff f c) /\ fresh f /\ sites_below n f.

Lemma comm_behind ord n X t f : reorders ord -> fresh X -> sites_below n X -> behind n t f ->
  exists p k, mono_commutator ord X t = Ok (set_coeff p k) /\ mono_mul ord X f = Ok p /\ fresh p /\ sites_below n p /\
    meq (2 ^ n) (denote n (set_coeff p k)) (bracket n (denote n X) (denote n f)).
Proof.
  intros Ho HX BX ((c & ->) & Hf & Bf).
  destruct (commutator_spec ord X f n Ho HX Hf BX Bf) as (d & Ed & Md).
  destruct (mono_mul_spec ord X f n Ho HX Hf BX Bf) as (p & Ep & Bp & _).
  destruct (mono_mul_wf_spec ord X f Ho HX Hf) as (p' & Ep' & Fp & _). rewrite Ep in Ep'. injection Ep' as <-.
  change (mono_commutator ord X (set_coeff f c)) with (mono_commutator ord X f).
  unfold mono_commutator in Ed |- *. rewrite Ep in Ed |- *. cbn [bind] in Ed |- *. destruct (mono_mul ord f X) as [r|]; [|discriminate]. cbn [bind] in Ed |- *.
  injection Ed as <-. eexists p, _. split; [reflexivity|]. repeat split; auto.
Qed.

Lemma append_spec n level p k q : fresh p -> sites_below n p -> exists add, bch_append level (set_coeff p k) q = level ++ add /\
  meq (2 ^ n) (total n add) (mscale q (denote n (set_coeff p k))) /\ (k = g0 -> add = []) /\
  (k <> g0 -> add = [set_coeff p (gmul k q)]) /\ Forall (fun t => exists f, behind n t f) add.
Proof.
  intros Fp Bp. unfold bch_append. cbn [m_coeff set_coeff]. destruct (geqb k g0) eqn:E.
  - apply geqb_eq in E. subst k. exists []. rewrite app_nil_r. split; [reflexivity|]. split.
    + intros i j _ _. unfold total, msum, mscale, denote. simpl. unfold mscale. simpl. ring.
    + repeat split; auto. congruence.
  - assert (Hk : k <> g0) by (intros ->; rewrite (proj2 (geqb_eq g0 g0) eq_refl) in E; discriminate).
    exists [set_coeff p (gmul k q)]. split; [reflexivity|]. split.
    + intros i j _ _. unfold total, msum, mscale, denote. simpl. unfold mscale.
      change (mono_string n (set_coeff p (gmul k q))) with (mono_string n (set_coeff p k)). simpl. ring.
    + split; [congruence|]. split; [auto|]. constructor; [|constructor]. exists p. split; [eexists; reflexivity|auto].
Qed.

Lemma body_spec ord n m X Y level t f : reorders ord -> fresh X -> fresh Y -> sites_below n X -> sites_below n Y -> behind n t f ->
  exists add, bch_body ord X Y m level t = Ok (level ++ add) /\ Forall (fun t => exists f, behind n t f) add /\
    meq (2 ^ n) (total n add) (mscale (inv_fact m) (msub (bracket n (denote n X) (denote n f)) (bracket n (denote n Y) (denote n f)))).
Proof.
  intros Ho HX HY BX BY Hb. unfold bch_body.
  destruct (comm_behind ord n X t f Ho HX BX Hb) as (p & k & -> & _ & Fp & Bp & Mp). cbn [bind].
  destruct (append_spec n level p k (inv_fact m) Fp Bp) as (a1 & -> & M1 & _ & _ & F1).
  destruct (comm_behind ord n Y t f Ho HY BY Hb) as (p' & k' & -> & _ & Fp' & Bp' & Mp'). cbn [bind].
  destruct (append_spec n (level ++ a1) p' k' (gopp (inv_fact m)) Fp' Bp') as (a2 & -> & M2 & _ & _ & F2).
  exists (a1 ++ a2). rewrite app_assoc. split; [reflexivity|]. split; [apply Forall_app; auto|].
  intros i j Hi Hj. rewrite (total_app n a1 a2 i j Hi Hj). unfold madd. rewrite (M1 i j Hi Hj), (M2 i j Hi Hj).
  unfold mscale, msub. rewrite (Mp i j Hi Hj), (Mp' i j Hi Hj). simpl. ring.
Qed.

Lemma level_spec ord n m X Y ts fs : reorders ord -> fresh X -> fresh Y -> sites_below n X -> sites_below n Y -> Forall2 (behind n) ts fs ->
  forall level, exists add, foldM_list (bch_body ord X Y m) ts level = Ok (level ++ add) /\ Forall (fun t => exists f, behind n t f) add /\
    meq (2 ^ n) (total n add) (mscale (inv_fact m) (msum (fun f => msub (bracket n (denote n X) (denote n f)) (bracket n (denote n Y) (denote n f))) fs)).
Proof.
  intros Ho HX HY BX BY HF. induction HF as [|t f ts fs Hb _ IH]; intros level; cbn [foldM_list].
  - exists []. rewrite app_nil_r. split; [reflexivity|]. split; [constructor|]. intros i j _ _. unfold total, msum, mscale. simpl. ring.
  - destruct (body_spec ord n m X Y level t f Ho HX HY BX BY Hb) as (a1 & -> & F1 & M1). cbn [bind].
    destruct (IH (level ++ a1)) as (a2 & -> & F2 & M2). exists (a1 ++ a2). rewrite app_assoc. split; [reflexivity|].
    split; [apply Forall_app; auto|]. intros i j Hi Hj. rewrite (total_app n a1 a2 i j Hi Hj). unfold madd.
    rewrite (M1 i j Hi Hj), (M2 i j Hi Hj). unfold mscale, msum. simpl. ring.
Qed.

Lemma self_behind n X : fresh X -> sites_below n X -> behind n X X.
Proof. intros HX BX. split; [|auto]. exists (m_coeff X). destruct X; reflexivity. Qed.

(** the second level *)
Lemma second ord n X Y : reorders ord -> fresh X -> fresh Y -> sites_below n X -> sites_below n Y ->
  exists p r, mono_mul ord X Y = Ok p /\ mono_mul ord Y X = Ok r /\ fresh p /\ fresh r /\ sites_below n p /\ sites_below n r /\
    meq (2 ^ n) (denote n p) (mmul (2 ^ n) (denote n X) (denote n Y)) /\
    meq (2 ^ n) (denote n r) (mmul (2 ^ n) (denote n Y) (denote n X)) /\
    (m_coeff p = m_coeff r -> foldM_list (bch_body ord X Y 2) [X; Y] [] = Ok [] /\
       meq (2 ^ n) (bracket n (denote n X) (denote n Y)) mzero) /\
    (m_coeff p <> m_coeff r -> meq (2 ^ n) (denote n p) (mscale (gopp g1) (denote n r)) /\
       exists c d, foldM_list (bch_body ord X Y 2) [X; Y] [] = Ok [set_coeff r c; set_coeff p d] /\
         meq (2 ^ n) (denote n (set_coeff r c)) (bch2 n (denote n X) (denote n Y)) /\
         meq (2 ^ n) (denote n (set_coeff p d)) (bch2 n (denote n X) (denote n Y))).
Proof.
  intros Ho HX HY BX BY.
  pose proof (proj1 (fresh_wfc X) HX) as [WX _]. pose proof (proj1 (fresh_wfc Y) HY) as [WY _].
  destruct (mono_mul_spec ord X Y n Ho HX HY BX BY) as (p & Ep & Bp & Mp).
  destruct (mono_mul_spec ord Y X n Ho HY HX BY BX) as (r & Er & Br & Mr).
  destruct (mono_mul_wf_spec ord X Y Ho HX HY) as (p' & Ep' & Fp & _). rewrite Ep in Ep'. injection Ep' as <-.
  destruct (mono_mul_wf_spec ord Y X Ho HY HX) as (r' & Er' & Fr & _). rewrite Er in Er'. injection Er' as <-.
  exists p, r. do 6 (split; [assumption|]). split; [exact Mp|]. split; [exact Mr|].
  assert (Eqp : p = mk_mono (prod_paulis X Y)) by (rewrite mono_mul_ok in Ep by auto; injection Ep as <-; reflexivity).
  assert (Eqr : r = mk_mono (prod_paulis Y X)) by (rewrite mono_mul_ok in Er by auto; injection Er as <-; reflexivity).
  assert (Hstr : mono_string n p = mono_string n r) by (subst p r; apply prod_string_comm; auto).
  assert (Hs : m_coeff p = m_coeff r \/ m_coeff p = gopp (m_coeff r)).
  { subst p r. cbn [m_coeff mk_mono]. rewrite (swap_coeff n X Y) by auto. rewrite gsgn_even. destruct (Nat.even _); [left|right]; ring. }
  assert (EXX : exists z, mono_commutator ord X X = Ok (set_coeff z g0) /\ fresh z /\ sites_below n z).
  { destruct (comm_behind ord n X X X Ho HX BX (self_behind n X HX BX)) as (z & k & E & Ez & Fz & Bz & _). exists z. split; [|auto].
    unfold mono_commutator in *. rewrite Ez in *. cbn [bind] in *. f_equal. f_equal. ring. }
  assert (EYY : exists z, mono_commutator ord Y Y = Ok (set_coeff z g0) /\ fresh z /\ sites_below n z).
  { destruct (comm_behind ord n Y Y Y Ho HY BY (self_behind n Y HY BY)) as (z & k & E & Ez & Fz & Bz & _). exists z. split; [|auto].
    unfold mono_commutator in *. rewrite Ez in *. cbn [bind] in *. f_equal. f_equal. ring. }
  destruct EXX as (zx & EX & Fzx & Bzx). destruct EYY as (zy & EY & Fzy & Bzy).
  assert (EXY : mono_commutator ord X Y = Ok (set_coeff p (gsub (m_coeff p) (m_coeff r)))) by (unfold mono_commutator; rewrite Ep, Er; reflexivity).
  assert (EYX : mono_commutator ord Y X = Ok (set_coeff r (gsub (m_coeff r) (m_coeff p)))) by (unfold mono_commutator; rewrite Er, Ep; reflexivity).
  assert (Mc : meq (2 ^ n) (bracket n (denote n X) (denote n Y)) (mscale (gsub (m_coeff p) (m_coeff r)) (pword (mono_string n p)))).
  { intros i j Hi Hj. unfold bracket, msub. rewrite <- (Mp i j Hi Hj), <- (Mr i j Hi Hj). unfold denote, mscale. rewrite Hstr. simpl. ring. }
  assert (EF : foldM_list (bch_body ord X Y 2) [X; Y] [] =
    Ok (bch_append (bch_append (bch_append (bch_append [] (set_coeff zx g0) (inv_fact 2)) (set_coeff r (gsub (m_coeff r) (m_coeff p))) (gopp (inv_fact 2)))
      (set_coeff p (gsub (m_coeff p) (m_coeff r))) (inv_fact 2)) (set_coeff zy g0) (gopp (inv_fact 2)))).
  { cbn [foldM_list]. unfold bch_body. rewrite EX, EYX. cbn [bind]. rewrite EXY, EY. reflexivity. }
  destruct (append_spec n [] zx g0 (inv_fact 2) Fzx Bzx) as (a1 & E1 & _ & Z1 & _). rewrite (Z1 eq_refl), app_nil_r in E1. rewrite E1 in EF.
  destruct (append_spec n [] r (gsub (m_coeff r) (m_coeff p)) (gopp (inv_fact 2)) Fr Br) as (a2 & E2 & _ & Z2 & N2 & _). rewrite E2 in EF. cbn [app] in EF.
  destruct (append_spec n a2 p (gsub (m_coeff p) (m_coeff r)) (inv_fact 2) Fp Bp) as (a3 & E3 & _ & Z3 & N3 & _). rewrite E3 in EF.
  destruct (append_spec n (a2 ++ a3) zy g0 (gopp (inv_fact 2)) Fzy Bzy) as (a4 & E4 & _ & Z4 & _). rewrite E4, (Z4 eq_refl), app_nil_r in EF.
  split.
  - intros Hk. rewrite Hk in *. assert (Z : gsub (m_coeff r) (m_coeff r) = g0) by ring. rewrite (Z2 Z), (Z3 Z) in EF. split; [exact EF|].
    rewrite Mc. intros i j _ _. unfold mscale, mzero. rewrite Z. simpl. ring.
  - intros Hk. destruct Hs as [|Hs]; [congruence|]. split.
    + intros i j _ _. unfold denote, mscale. rewrite Hstr, Hs. simpl. ring.
    + rewrite N2 in EF by (intros Hz; apply Hk; transitivity (gadd (gsub (m_coeff r) (m_coeff p)) (m_coeff p)); [rewrite Hz|]; ring).
      rewrite N3 in EF by (intros Hz; apply Hk; transitivity (gadd (gsub (m_coeff p) (m_coeff r)) (m_coeff r)); [|rewrite Hz]; ring).
      eexists _, _. split; [exact EF|].
      assert (H2 : inv_fact 2 = gofQ (1 # 2)) by reflexivity.
      split; intros i j Hi Hj; unfold bch2, mscale; rewrite (Mc i j Hi Hj); unfold denote, mscale; cbn [m_coeff set_coeff];
        [change (mono_string n (set_coeff r _)) with (mono_string n r); rewrite <- Hstr|change (mono_string n (set_coeff p _)) with (mono_string n p)]; rewrite H2; simpl; ring.
Qed.

(** *** the levels after the second *)

Definition negative (A : mat gq) : mat gq := mscale (gopp g1) A.
#[local] Instance negative_proper n : Proper (meq n ==> meq n) negative.
Proof. intros A B E i j Hi Hj. unfold negative, mscale. rewrite (E i j Hi Hj). reflexivity. Qed.

Lemma zero_coeff n p k : fresh p -> (k = g0 <-> meq (2 ^ n) (denote n (set_coeff p k)) mzero).
Proof.
  intros Fp. split.
  - intros ->. intros i j _ _. unfold denote, mscale, mzero. simpl. ring.
  - intros H. unfold denote in H. cbn [m_coeff set_coeff] in H.
    change (mono_string n (set_coeff p k)) with (mono_string n p) in H.
    set (w := mono_string n p) in *.
    assert (Hw : Forall (fun g => g <= 3) w) by (apply mono_string_le; apply fresh_wfc in Fp; apply Fp).
    pose proof (pword_scale_inj w) as E. assert (L : List.length w = n) by apply mono_string_length. rewrite L in E.
    apply (E k g0 Hw). rewrite H. intros i j _ _. unfold mscale, mzero. simpl. ring.
Qed.

(** two monomials whose constructor values are opposite *)
Definition opposite (n : nat) (t u : mono) : Prop :=
  exists f g, behind n t f /\ behind n u g /\ meq (2 ^ n) (denote n g) (negative (denote n f)).

Lemma bracket_neg n X A B : meq (2 ^ n) B (negative A) -> meq (2 ^ n) (bracket n X B) (negative (bracket n X A)).
Proof.
  intros E. unfold bracket, negative in *. rewrite E. rewrite mmul_scale_r, mmul_scale_l. intros i j _ _. unfold msub, mscale. simpl. ring.
Qed.

Lemma append_opposite ord n X t u q la lb : reorders ord -> fresh X -> sites_below n X -> opposite n t u ->
  exists c d a b, mono_commutator ord X t = Ok c /\ mono_commutator ord X u = Ok d /\
    bch_append la c q = la ++ a /\ bch_append lb d q = lb ++ b /\ Forall2 (opposite n) a b /\
    meq (2 ^ n) (madd (total n a) (total n b)) mzero.
Proof.
  intros Ho HX BX (f & g & Bf & Bg & E).
  destruct (comm_behind ord n X t f Ho HX BX Bf) as (p & k & Ec & Ep & Fp & Bp & Mp).
  destruct (comm_behind ord n X u g Ho HX BX Bg) as (p' & k' & Ec' & Ep' & Fp' & Bp' & Mp').
  destruct Bf as (_ & Ff & Bf). destruct Bg as (_ & Fg & Bg).
  destruct (mono_mul_spec ord X f n Ho HX Ff BX Bf) as (p0 & E0 & _ & M0). rewrite Ep in E0. injection E0 as <-.
  destruct (mono_mul_spec ord X g n Ho HX Fg BX Bg) as (p1 & E1 & _ & M1). rewrite Ep' in E1. injection E1 as <-.
  assert (Mneg : meq (2 ^ n) (denote n (set_coeff p' k')) (negative (denote n (set_coeff p k)))).
  { rewrite Mp', Mp. apply bracket_neg. exact E. }
  assert (Mprod : meq (2 ^ n) (denote n p') (negative (denote n p))).
  { rewrite M1, M0. unfold negative in *. rewrite E. rewrite mmul_scale_r. reflexivity. }
  assert (Z : k = g0 <-> k' = g0).
  { rewrite (zero_coeff n p k Fp), (zero_coeff n p' k' Fp'). rewrite Mneg. split; intros H.
    - rewrite H. intros i j _ _. unfold negative, mscale, mzero. simpl. ring.
    - intros i j Hi Hj. pose proof (H i j Hi Hj) as H'. unfold negative, mscale, mzero in *.
      transitivity (gopp (gmul (gopp g1) (denote n (set_coeff p k) i j))); [ring|]. simpl in H'. rewrite H'. simpl. ring. }
  destruct (append_spec n la p k q Fp Bp) as (a & Ea & Ma & Za & Na & _).
  destruct (append_spec n lb p' k' q Fp' Bp') as (b & Eb & Mb & Zb & Nb & _).
  exists (set_coeff p k), (set_coeff p' k'), a, b. do 4 (split; [assumption|]). split.
  - destruct (geqb k g0) eqn:Ek.
    + apply geqb_eq in Ek. rewrite (Za Ek), (Zb (proj1 Z Ek)). constructor.
    + assert (Hk : k <> g0) by (intros ->; rewrite (proj2 (geqb_eq g0 g0) eq_refl) in Ek; discriminate).
      rewrite (Na Hk), Nb by tauto. constructor; [|constructor]. exists p, p'.
      split; [split; [eexists; reflexivity|auto]|]. split; [split; [eexists; reflexivity|auto]|exact Mprod].
  - intros i j Hi Hj. unfold madd. rewrite (Ma i j Hi Hj), (Mb i j Hi Hj). unfold mscale. rewrite (Mneg i j Hi Hj). unfold negative, mscale, mzero. simpl. ring.
Qed.

(** one loop over a list and over the list of its opposites *)
Lemma fold_opposite ord n m X Y ts us : reorders ord -> fresh X -> fresh Y -> sites_below n X -> sites_below n Y -> Forall2 (opposite n) ts us ->
  forall la lb, exists a b, foldM_list (bch_body ord X Y m) ts la = Ok (la ++ a) /\ foldM_list (bch_body ord X Y m) us lb = Ok (lb ++ b) /\
    Forall2 (opposite n) a b /\ meq (2 ^ n) (madd (total n a) (total n b)) mzero.
Proof.
  intros Ho HX HY BX BY HF. induction HF as [|t u ts us H _ IH]; intros la lb; cbn [foldM_list].
  - exists [], []. rewrite !app_nil_r. split; [reflexivity|]. split; [reflexivity|]. split; [constructor|]. intros i j _ _. unfold madd, total, msum, mzero. simpl. ring.
  - unfold bch_body at 1 3.
    destruct (append_opposite ord n X t u (inv_fact m) la lb Ho HX BX H) as (c & d & a1 & b1 & -> & -> & E1 & E1' & F1 & M1). cbn [bind]. rewrite E1, E1'.
    destruct (append_opposite ord n Y t u (gopp (inv_fact m)) (la ++ a1) (lb ++ b1) Ho HY BY H) as (c' & d' & a2 & b2 & -> & -> & E2 & E2' & F2 & M2). cbn [bind]. rewrite E2, E2'.
    destruct (IH ((la ++ a1) ++ a2) ((lb ++ b1) ++ b2)) as (a3 & b3 & -> & -> & F3 & M3).
    exists (a1 ++ a2 ++ a3), (b1 ++ b2 ++ b3). rewrite !app_assoc. split; [reflexivity|]. split; [reflexivity|]. split.
    + rewrite <- !app_assoc. repeat apply Forall2_app; auto.
    + intros i j Hi Hj. rewrite <- !app_assoc. unfold madd, mzero.
      rewrite (total_app n a1 (a2 ++ a3) i j Hi Hj), (total_app n b1 (b2 ++ b3) i j Hi Hj). unfold madd.
      rewrite (total_app n a2 a3 i j Hi Hj), (total_app n b2 b3 i j Hi Hj). unfold madd.
      pose proof (M1 i j Hi Hj) as N1. pose proof (M2 i j Hi Hj) as N2. pose proof (M3 i j Hi Hj) as N3. unfold madd, mzero in N1, N2, N3. simpl in *.
      transitivity (gadd (gadd (gadd (total n a1 i j) (total n b1 i j)) (gadd (total n a2 i j) (total n b2 i j))) (gadd (total n a3 i j) (total n b3 i j))); [ring|].
      rewrite N1, N2, N3. ring.
Qed.

Lemma foldM_app {A S} (f : S -> A -> res S) l m s : foldM_list f (l ++ m) s = do s' <- foldM_list f l s; foldM_list f m s'.
Proof. revert s. induction l as [|a l IH]; intros s; [reflexivity|]. cbn [app foldM_list]. destruct (f s a); cbn [bind]; auto. Qed.

(** a level made of a list and the list of its opposites *)
Definition cancelling (n : nat) (l : list mono) : Prop := exists a b, l = a ++ b /\ Forall2 (opposite n) a b.

Lemma next_level ord n X Y m l : reorders ord -> fresh X -> fresh Y -> sites_below n X -> sites_below n Y -> cancelling n l ->
  exists l', foldM_list (bch_body ord X Y m) l [] = Ok l' /\ cancelling n l' /\ meq (2 ^ n) (total n l') mzero.
Proof.
  intros Ho HX HY BX BY (a & b & -> & HF). destruct (fold_opposite ord n m X Y a b Ho HX HY BX BY HF [] []) as (a' & _ & Ea & _).
  destruct (fold_opposite ord n m X Y a b Ho HX HY BX BY HF [] a') as (a2 & b' & Ea2 & Eb & F & M). rewrite Ea in Ea2. injection Ea2 as <-.
  rewrite foldM_app, Ea. cbn [bind app]. rewrite Eb. exists (a' ++ b'). split; [reflexivity|]. split; [exists a', b'; auto|]. rewrite total_app. exact M.
Qed.

Lemma rounds_after ord n X Y : reorders ord -> fresh X -> fresh Y -> sites_below n X -> sites_below n Y ->
  forall k terms l, cancelling n l -> exists ls, bch_rounds ord X Y k (terms ++ [l]) = Ok (terms ++ [l] ++ ls) /\ List.length ls = k /\
    Forall (fun l => meq (2 ^ n) (total n l) mzero) ls.
Proof.
  intros Ho HX HY BX BY. induction k as [|k IH]; intros terms l Hl; cbn [bch_rounds].
  - exists []. repeat split; auto.
  - unfold bch_recusion at 1. rewrite rev_app_distr. cbn [rev app].
    destruct (next_level ord n X Y (List.length (terms ++ [l]) + 1) l Ho HX HY BX BY Hl) as (l' & -> & Hl' & M). cbn [bind].
    destruct (IH (terms ++ [l]) l' Hl') as (ls & -> & L & F). exists (l' :: ls). rewrite <- app_assoc. cbn. split; [reflexivity|]. split; [lia|]. constructor; auto.
Qed.

(** *** what every single term is *)

Definition of_word (n m : nat) (X Y t : mono) : Prop := exists f w, behind n t f /\ List.length w = m /\
  meq (2 ^ n) (denote n f) (word_op n (denote n X) (denote n Y) w).

Lemma append_word ord n m X Y (b : bool) t level : reorders ord -> fresh X -> fresh Y -> sites_below n X -> sites_below n Y -> of_word n m X Y t ->
  exists c add, mono_commutator ord (if b then X else Y) t = Ok c /\
    bch_append level c (gmul (if b then g1 else gopp g1) (inv_fact (S m))) = level ++ add /\
    Forall (fun t => of_word n (S m) X Y t /\ nested n (S m) (denote n X) (denote n Y) (denote n t)) add.
Proof.
  intros Ho HX HY BX BY (f & w & Hb & L & Mf). set (Z := if b then X else Y).
  assert (HZ : fresh Z /\ sites_below n Z) by (unfold Z; destruct b; auto). destruct HZ as [FZ BZ].
  destruct (comm_behind ord n Z t f Ho FZ BZ Hb) as (p & k & Ec & Ep & Fp & Bp & Mc). exists (set_coeff p k).
  destruct Hb as (_ & Ff & Bf). destruct (mono_mul_spec ord Z f n Ho FZ Ff BZ Bf) as (p0 & E0 & _ & M0). rewrite Ep in E0. injection E0 as <-.
  destruct (append_spec n level p k (gmul (if b then g1 else gopp g1) (inv_fact (S m))) Fp Bp) as (add & Ea & Ma & Za & Na & _).
  exists add. split; [exact Ec|]. split; [exact Ea|].
  assert (EZ : denote n Z = if b then denote n X else denote n Y) by (unfold Z; destruct b; reflexivity).
  destruct (geqb k g0) eqn:Ek.
  - apply geqb_eq in Ek. rewrite (Za Ek). constructor.
  - assert (Hk : k <> g0) by (intros ->; rewrite (proj2 (geqb_eq g0 g0) eq_refl) in Ek; discriminate).
    rewrite (Na Hk) in Ma |- *. constructor; [|constructor]. split.
    + exists p, (b :: w). split; [split; [eexists; reflexivity|auto]|]. split; [cbn; lia|]. cbn [word_op]. rewrite M0, Mf, EZ. reflexivity.
    + exists b, w. split; [lia|]. intros i j Hi Hj. pose proof (Ma i j Hi Hj) as H. unfold total, msum in H. simpl in H.
      transitivity (gadd (denote n (set_coeff p (gmul k (gmul (if b then g1 else gopp g1) (inv_fact (S m))))) i j) g0); [simpl; ring|]. rewrite H.
      unfold mscale. rewrite (Mc i j Hi Hj). unfold inv_fact. f_equal. rewrite EZ. unfold bracket, msub.
      rewrite (mmul_proper (2 ^ n) _ _ (reflexivity _) _ _ Mf i j Hi Hj), (mmul_proper (2 ^ n) _ _ Mf _ _ (reflexivity _) i j Hi Hj). reflexivity.
Qed.

Lemma level_words ord n m X Y : reorders ord -> fresh X -> fresh Y -> sites_below n X -> sites_below n Y ->
  forall ts, Forall (of_word n m X Y) ts -> forall level level', foldM_list (bch_body ord X Y (S m)) ts level = Ok level' ->
  exists add, level' = level ++ add /\ Forall (fun t => of_word n (S m) X Y t /\ nested n (S m) (denote n X) (denote n Y) (denote n t)) add.
Proof.
  intros Ho HX HY BX BY ts HF. induction HF as [|t ts Ht _ IH]; intros level level' E; cbn [foldM_list] in E.
  - injection E as <-. exists []. rewrite app_nil_r. auto.
  - unfold bch_body at 1 in E.
    destruct (append_word ord n m X Y true t level Ho HX HY BX BY Ht) as (c & a1 & Ec & E1 & F1). cbn iota in Ec, E1. rewrite Ec in E. cbn [bind] in E.
    replace (gmul g1 (inv_fact (S m))) with (inv_fact (S m)) in E1 by ring. rewrite E1 in E.
    destruct (append_word ord n m X Y false t (level ++ a1) Ho HX HY BX BY Ht) as (d & a2 & Ed & E2 & F2). cbn iota in Ed, E2. rewrite Ed in E. cbn [bind] in E.
    replace (gmul (gopp g1) (inv_fact (S m))) with (gopp (inv_fact (S m))) in E2 by ring. rewrite E2 in E.
    destruct (IH _ _ E) as (a3 & -> & F3). exists (a1 ++ a2 ++ a3). rewrite !app_assoc. split; [reflexivity|].
    apply Forall_app; split; [apply Forall_app; split|]; assumption.
Qed.

Lemma rounds_words ord n X Y : reorders ord -> fresh X -> fresh Y -> sites_below n X -> sites_below n Y ->
  forall k terms l ls, Forall (of_word n (S (List.length terms)) X Y) l -> bch_rounds ord X Y k (terms ++ [l]) = Ok (terms ++ [l] ++ ls) ->
  forall i l' t, nth_error ls i = Some l' -> In t l' -> nested n (List.length terms + 2 + i) (denote n X) (denote n Y) (denote n t).
Proof.
  intros Ho HX HY BX BY. induction k as [|k IH]; intros terms l ls Hl E i l' t Ei Ht; cbn [bch_rounds] in E.
  - injection E as E. apply app_inv_head in E. injection E as E. subst ls. destruct i; discriminate.
  - unfold bch_recusion at 1 in E. rewrite rev_app_distr in E. cbn [rev app] in E.
    replace (List.length (terms ++ [l]) + 1) with (S (S (List.length terms))) in E by (rewrite app_length; cbn; lia).
    destruct (foldM_list (bch_body ord X Y (S (S (List.length terms)))) l []) as [l1|] eqn:E1; [|discriminate]. cbn [bind] in E.
    destruct (level_words ord n _ X Y Ho HX HY BX BY l Hl [] l1 E1) as (add & -> & F). cbn [app] in *.
    assert (G : exists ls', ls = add :: ls' /\ bch_rounds ord X Y k ((terms ++ [l]) ++ [add]) = Ok ((terms ++ [l]) ++ [add] ++ ls')).
    { assert (P : forall k t l2, bch_rounds ord X Y k t = Ok l2 -> exists r, l2 = t ++ r).
      { clear. induction k as [|k IH]; intros t l2 E; cbn [bch_rounds] in E.
        - injection E as <-. exists []. rewrite app_nil_r. reflexivity.
        - destruct (bch_recusion ord X Y t) as [t'|] eqn:E'; [|discriminate]. cbn [bind] in E. destruct (IH _ _ E) as (r & ->).
          unfold bch_recusion in E'. destruct (rev t); [discriminate|]. destruct (foldM_list _ _ _) as [lv|]; [|discriminate]. cbn [bind] in E'. injection E' as <-.
          exists ([lv] ++ r). rewrite app_assoc. reflexivity. }
      destruct (P _ _ _ E) as (r & Er). rewrite Er in E. rewrite <- !app_assoc in Er. apply app_inv_head in Er. injection Er as ->. exists r. split; [reflexivity|].
      rewrite E. rewrite <- !app_assoc. reflexivity. }
    destruct G as (ls' & -> & G). destruct i as [|i].
    + injection Ei as <-. rewrite Forall_forall in F. replace (List.length terms + 2 + 0) with (S (S (List.length terms))) by lia. apply F. exact Ht.
    + cbn in Ei. replace (List.length terms + 2 + S i) with (List.length (terms ++ [l]) + 2 + i) by (rewrite app_length; cbn; lia).
      refine (IH (terms ++ [l]) add ls' _ G i l' t Ei Ht).
      eapply Forall_impl; [|exact F]. intros a Ha. replace (S (List.length (terms ++ [l]))) with (S (S (List.length terms))) by (rewrite app_length; cbn; lia). apply Ha.
Qed.

(** ** C89 *)

Definition one_letter (g : nat) : mono := mk_mono [{| p_alpha := 0; p_gamma := g; p_coeff := g1 |}].

Lemma one_letter_fresh g : g <= 3 -> fresh (one_letter g) /\ sites_below 1 (one_letter g).
Proof.
  intros Hg. split; [|repeat constructor]. apply fresh_wfc. split; [split; [reflexivity|split]|reflexivity].
  - repeat constructor.
  - constructor; [unfold valid; simpl; lia|constructor].
Qed.

Theorem C89_bch_terms_refuted : exists X Y l2 l3, fresh X /\ fresh Y /\ sites_below 1 X /\ sites_below 1 Y /\
  bch_rounds ord_id X Y 2 [[X; Y]] = Ok [[X; Y]; l2; l3] /\
  ~ meq (2 ^ 1) (total 1 l2) (bch2 1 (denote 1 X) (denote 1 Y)) /\
  ~ meq (2 ^ 1) (total 1 l3) (bch3 1 (denote 1 X) (denote 1 Y)).
Proof.
  exists (one_letter 3), (one_letter 1). eexists _, _. destruct (one_letter_fresh 3 ltac:(lia)) as [F3 B3]. destruct (one_letter_fresh 1 ltac:(lia)) as [F1 B1].
  do 4 (split; [assumption|]). split; [vm_compute; reflexivity|]. split; intros H.
  - specialize (H 0 1 ltac:(simpl; lia) ltac:(simpl; lia)). apply geqb_eq in H. vm_compute in H. discriminate.
  - specialize (H 0 1 ltac:(simpl; lia) ltac:(simpl; lia)). apply geqb_eq in H. vm_compute in H. discriminate.
Qed.
Print Assumptions C89_bch_terms_refuted.

(** What holds. Missing: levels two and three as the terms of the expansion, which is
    false unless X and Y commute; then the expansion ends after X + Y. *)
Theorem C89_bch_terms_partial : forall ord n X Y, reorders ord -> fresh X -> fresh Y -> sites_below n X -> sites_below n Y ->
  bch_recusion ord X Y [] = Err IndexError /\
  forall k, exists ls, bch_rounds ord X Y k [[X; Y]] = Ok ([X; Y] :: ls) /\ List.length ls = k /\
    (* commuting monomials: nothing is added *)
    (meq (2 ^ n) (bracket n (denote n X) (denote n Y)) mzero -> ls = repeat [] k) /\
    (* otherwise: the second level has the term of degree two twice *)
    (~ meq (2 ^ n) (bracket n (denote n X) (denote n Y)) mzero -> forall l, nth_error ls 0 = Some l ->
       List.length l = 2 /\ Forall (fun t => meq (2 ^ n) (denote n t) (bch2 n (denote n X) (denote n Y))) l) /\
    (* and the terms of every later level add up to zero *)
    (forall i l, 1 <= i -> nth_error ls i = Some l -> meq (2 ^ n) (total n l) mzero) /\
    (* each term of level m is a commutator with a word of m-1 letters, divided by m! *)
    (forall i l t, nth_error ls i = Some l -> In t l -> nested n (2 + i) (denote n X) (denote n Y) (denote n t)).
Proof.
  intros ord n X Y Ho HX HY BX BY. split; [reflexivity|]. intros k.
  cut (exists ls, bch_rounds ord X Y k [[X; Y]] = Ok ([X; Y] :: ls) /\ List.length ls = k /\
    (meq (2 ^ n) (bracket n (denote n X) (denote n Y)) mzero -> ls = repeat [] k) /\
    (~ meq (2 ^ n) (bracket n (denote n X) (denote n Y)) mzero -> forall l, nth_error ls 0 = Some l ->
       List.length l = 2 /\ Forall (fun t => meq (2 ^ n) (denote n t) (bch2 n (denote n X) (denote n Y))) l) /\
    (forall i l, 1 <= i -> nth_error ls i = Some l -> meq (2 ^ n) (total n l) mzero)).
  { intros (ls & E & L & H1 & H2 & H3). exists ls. do 5 (split; [assumption|]).
    assert (W : Forall (of_word n 1 X Y) [X; Y]).
    { constructor; [|constructor; [|constructor]].
      - exists X, [true]. split; [apply self_behind; auto|]. split; [reflexivity|]. cbn [word_op]. rewrite mmul_1_r. reflexivity.
      - exists Y, [false]. split; [apply self_behind; auto|]. split; [reflexivity|]. cbn [word_op]. rewrite mmul_1_r. reflexivity. }
    exact (rounds_words ord n X Y Ho HX HY BX BY k [] [X; Y] ls W E). }
  destruct k as [|k].
  { exists []. split; [reflexivity|]. split; [reflexivity|]. split; [reflexivity|]. split; [intros _ l E; discriminate|]. intros [|i] l _ E; discriminate. }
  destruct (second ord n X Y Ho HX HY BX BY) as (p & r & _ & _ & Fp & Fr & Bp & Br & Mp & Mr & Hc & Ha).
  assert (Em : meq (2 ^ n) (bracket n (denote n X) (denote n Y)) mzero <-> m_coeff p = m_coeff r).
  { split; [|intros H; apply (proj2 (Hc H))]. intros H. destruct (geqb (m_coeff p) (m_coeff r)) eqn:E; [apply geqb_eq; exact E|].
    assert (Hne : m_coeff p <> m_coeff r) by (intros H'; rewrite (proj2 (geqb_eq _ _) H') in E; discriminate).
    destruct (Ha Hne) as (Mneg & _). assert (Z : meq (2 ^ n) (denote n p) mzero).
    { intros i j Hi Hj. pose proof (H i j Hi Hj) as H1. pose proof (Mp i j Hi Hj) as H2. pose proof (Mr i j Hi Hj) as H3. pose proof (Mneg i j Hi Hj) as H4.
      unfold bracket, msub, mscale, mzero in *. rewrite <- H2, <- H3 in H1. simpl in *. rewrite H4 in H1 |- *.
      assert (Hd : gmul (gadd g1 g1) (gmul (gopp g1) (denote n r i j)) = g0) by (rewrite <- H1; ring).
      transitivity (gmul (gofQ (1 # 2)) (gmul (gadd g1 g1) (gmul (gopp g1) (denote n r i j)))).
      - assert (E2 : gmul (gofQ (1 # 2)) (gadd g1 g1) = g1) by (apply geqb_eq; vm_compute; reflexivity).
        transitivity (gmul (gmul (gofQ (1 # 2)) (gadd g1 g1)) (gmul (gopp g1) (denote n r i j))); [rewrite E2; ring|ring].
      - rewrite Hd. ring. }
    assert (Zp : m_coeff p = g0). { apply (zero_coeff n p (m_coeff p) Fp). destruct p; exact Z. }
    assert (Zr : m_coeff r = g0).
    { apply (zero_coeff n r (m_coeff r) Fr). intros i j Hi Hj. change (set_coeff r (m_coeff r)) with {| m_locs := m_locs r; m_paulis := m_paulis r; m_coeff := m_coeff r |}.
      assert (Er : {| m_locs := m_locs r; m_paulis := m_paulis r; m_coeff := m_coeff r |} = r) by (destruct r; reflexivity). rewrite Er.
      pose proof (Z i j Hi Hj) as H1. rewrite (Mneg i j Hi Hj) in H1. unfold mscale, mzero in *. simpl in *.
      transitivity (gopp (gmul (gopp g1) (denote n r i j))); [ring|]. rewrite H1. ring. }
    congruence. }
  cbn [bch_rounds]. unfold bch_recusion at 1. cbn [rev app List.length Nat.add].
  destruct (geqb (m_coeff p) (m_coeff r)) eqn:E.
  - apply geqb_eq in E. destruct (Hc E) as (-> & Mz). cbn [bind].
    assert (G : forall k terms, bch_rounds ord X Y k (terms ++ [[]]) = Ok (terms ++ [[]] ++ repeat [] k)).
    { clear. induction k as [|k IH]; intros terms; [reflexivity|]. cbn [bch_rounds]. unfold bch_recusion at 1. rewrite rev_app_distr. cbn [rev app foldM_list bind].
      rewrite (IH (terms ++ [[]])), <- app_assoc. reflexivity. }
    change ([[X; Y]; []]) with ([[X; Y]] ++ [[]]). rewrite G. exists (repeat [] (S k)). split; [reflexivity|]. split; [apply repeat_length|]. split; [reflexivity|].
    split; [intros H; contradiction|]. intros i l _ El. apply nth_error_In in El. apply repeat_spec in El. subst l. reflexivity.
  - assert (Hne : m_coeff p <> m_coeff r) by (intros H'; rewrite (proj2 (geqb_eq _ _) H') in E; discriminate).
    destruct (Ha Hne) as (Mneg & c & d & -> & Mc & Md). cbn [bind].
    assert (Hl : cancelling n [set_coeff r c; set_coeff p d]).
    { exists [set_coeff r c], [set_coeff p d]. split; [reflexivity|]. constructor; [|constructor]. exists r, p.
      split; [split; [eexists; reflexivity|auto]|]. split; [split; [eexists; reflexivity|auto]|]. exact Mneg. }
    destruct (rounds_after ord n X Y Ho HX HY BX BY k [[X; Y]] _ Hl) as (ls & Els & L & F).
    change ([[X; Y]; [set_coeff r c; set_coeff p d]]) with ([[X; Y]] ++ [[set_coeff r c; set_coeff p d]]). rewrite Els.
    exists ([set_coeff r c; set_coeff p d] :: ls). split; [reflexivity|]. split; [cbn; lia|]. split; [intros H; apply Em in H; contradiction|]. split.
    + intros _ l El. injection El as <-. split; [reflexivity|]. repeat constructor; assumption.
    + intros [|i] l Hi El; [lia|]. cbn in El. apply nth_error_In in El. rewrite Forall_forall in F. apply F. exact El.
Qed.
Print Assumptions C89_bch_terms_partial.

Example C89_case : reorders ord_id /\ fresh (one_letter 3) /\ fresh (one_letter 1) /\ sites_below 1 (one_letter 3) /\ sites_below 1 (one_letter 1) /\
  ~ meq (2 ^ 1) (bracket 1 (denote 1 (one_letter 3)) (denote 1 (one_letter 1))) mzero /\
  exists l, bch_rounds ord_id (one_letter 3) (one_letter 1) 2 [[one_letter 3; one_letter 1]] = Ok l /\ map (@List.length mono) l = [2; 2; 4].
Proof.
  destruct (one_letter_fresh 3 ltac:(lia)) as [F3 B3]. destruct (one_letter_fresh 1 ltac:(lia)) as [F1 B1].
  split; [intros l; apply Permutation.Permutation_refl|]. do 4 (split; [assumption|]). split.
  - intros H. specialize (H 0 1 ltac:(simpl; lia) ltac:(simpl; lia)). apply geqb_eq in H. vm_compute in H. discriminate.
  - eexists. split; [vm_compute; reflexivity|reflexivity].
Qed.
