(** Property C40: the algebra classes of oranssi/opt_tools.py. *)
From Coq Require Import Arith Lia Bool String Sorted.
From Verif Require Import Py StarRing Matrix GaussQ PauliSpec Bits PauliBasis UtilsModel UtilsProofs CircuitModel AlgebraModel AlgebraProofs.
From Coq Require Import List.
Import ListNotations.
Local Open Scope nat_scope.

(** Specification. [lens] are the allowed numbers of letters; a word has the
    letters 1 = X, 2 = Y, 3 = Z; [word_name] spells it; [pword] is the Kronecker
    product of the letters' matrices. The matrix stored for the word [w] on the
    qubits [q] is that of the n-letter word which has w_i at q_i and the
    identity elsewhere. *)
Definition complete_algebra {K} {SR : StarRing K} (n : nat) (lens : list nat) (full : list (key * arr K)) : Prop :=
  NoDup (map fst full) /\
  (forall d q, In (d, q) (map fst full) <->
     exists w, d = word_name w /\ In (List.length w) lens /\ Forall (fun g => 1 <= g <= 3) w /\
       List.length q = List.length w /\ StronglySorted lt q /\ Forall (fun x => x < n) q) /\
  (forall d q F w v, In ((d, q), F) full -> d = word_name w -> Forall (fun g => 1 <= g <= 3) w ->
     List.length v = n -> (forall i, i < List.length w -> nth (nth i q 0) v 0 = nth i w 0) ->
     (forall p, p < n -> ~ In p q -> nth p v 0 = 0) ->
     a_rows F = 2 ^ n /\ a_cols F = 2 ^ n /\ meq (2 ^ n) (a_ent F) (pword v)).

Section C40.
Context {K : Type} {SR : StarRing K}.

Lemma complete_intro n ks (full : list (key * arr K)) : NoDup ks ->
  map fst full = all_keys n ks -> Forall (key_ok n) full -> complete_algebra n ks full.
Proof.
  intros Hn Hm Hf. split; [|split].
  - rewrite Hm. apply all_keys_NoDup; auto.
  - intros d q. rewrite Hm, all_keys_In. split.
    + intros (w & Hw & -> & Hq). apply wwords_In in Hw. destruct Hw as [Hl Hw]. exists (up w). rewrite up_length.
      split; [reflexivity|]. split; [auto|]. split; [|exact Hq].
      apply (up_letters (List.length w)). apply words_spec; auto.
    + intros (w & -> & Hl & Hw & Hq). destruct (up_surj w Hw) as (v & Hv & Eu). exists v.
      assert (El : List.length v = List.length w) by (rewrite <- Eu, up_length; auto).
      split; [|split].
      * apply wwords_In. rewrite El. split; auto. apply words_spec in Hv. tauto.
      * unfold wname. rewrite Eu. auto.
      * rewrite El. exact Hq.
  - intros d q F w v Hi -> Hw Hv Hin Hout. rewrite Forall_forall in Hf. destruct (Hf _ Hi) as (u & Eu & Hu & Hq & _ & R1 & R2 & M).
    cbn [fst snd] in *. split; [auto|]. split; [auto|]. rewrite M.
    assert (Ew : w = up u).
    { apply word_name_inj; [eapply Forall_impl; [|exact Hw]; simpl; intros; lia| |exact Eu].
      apply Forall_forall. intros g Hg. apply in_map_iff in Hg. destruct Hg as (x & <- & Hx).
      rewrite Forall_forall in Hu. specialize (Hu x Hx). lia. }
    assert (Hok : wires_ok n q) by (eapply qtuple_wires; eauto).
    assert (Hlq : List.length q = List.length u) by apply Hq.
    rewrite emb_pword by (auto; rewrite up_length; auto).
    assert (E : place n q (up u) = v).
    { apply (nth_ext _ _ 0 0); [rewrite place_length; auto|]. intros p Hp. rewrite place_length in Hp.
      rewrite nth_place by auto. destruct (index_of p q) as [i|] eqn:Ei.
      - apply index_of_Some in Ei. rewrite <- Ew. assert (Hi' : i < List.length w).
        { rewrite Ew, up_length, <- Hlq. apply nth_error_Some. congruence. }
        rewrite <- (Hin i Hi'). f_equal. apply nth_error_nth; auto.
      - apply index_of_None in Ei. symmetry. apply Hout; auto. }
    rewrite E. reflexivity.
Qed.

Lemma su24_complete n ks : NoDup ks -> (forall k, In k ks -> k = 1 \/ k = 2) ->
  exists a, get_all_directions_and_qubits (mkalg (core0 n ks) (repeat 0 n)) = Ok a /\
    complete_algebra (K := K) n ks (al_full (al_core a)) /\ get_all_directions_and_qubits a = Ok a.
Proof.
  intros Hn Hk. destruct (enumerate_spec (K := K) n ks Hn) as (full & E1 & E2 & E3 & E4).
  { intros k Hi. destruct (Hk k Hi); lia. }
  eexists. unfold core0. rewrite get_all_keys by auto. fold (core0 (K := K) n ks). rewrite E1. cbn [bind].
  split; [reflexivity|]. cbn [al_core al_full]. split; [apply complete_intro; auto|].
  change (al_paulis (core0 (K := K) n ks)) with (combine (wnames ks) (map (op_of (K := K)) (wwords ks))) in *.
  rewrite get_all_keys by auto. rewrite E4. reflexivity.
Qed.
End C40.

(** C40. The second call returns the same object. *)
Theorem C40_su2_enumeration : forall (K : Type) (SR : StarRing K) n, exists a0 a,
  AlgebraSU2 (K := K) n = Ok a0 /\ get_all_directions_and_qubits a0 = Ok a /\
  complete_algebra n [1] (al_full (al_core a)) /\ get_all_directions_and_qubits a = Ok a.
Proof.
  intros K SR n. destruct (su24_complete (K := K) n [1]) as (a & H1 & H2 & H3).
  - repeat constructor; simpl; tauto.
  - simpl; intros k [<-|[]]; auto.
  - eexists _, a. split; [apply AlgebraSU2_eq|]. auto.
Qed.
Print Assumptions C40_su2_enumeration.

Theorem C40_su4_enumeration : forall (K : Type) (SR : StarRing K) n add_su2, exists a0 a,
  AlgebraSU4 (K := K) n add_su2 = Ok a0 /\ get_all_directions_and_qubits a0 = Ok a /\
  complete_algebra n (if add_su2 then [1; 2] else [2]) (al_full (al_core a)) /\ get_all_directions_and_qubits a = Ok a.
Proof.
  intros K SR n b. destruct (su24_complete (K := K) n (ks4 b)) as (a & H1 & H2 & H3).
  - apply ks4_NoDup.
  - destruct b; simpl; intros k Hk; lia.
  - eexists _, a. split; [apply AlgebraSU4_eq|]. split; [auto|]. split; [|auto]. destruct b; exact H2.
Qed.
Print Assumptions C40_su4_enumeration.

Theorem C40_su8_enumeration : forall (K : Type) (SR : StarRing K) n add_su2 add_su4, exists a0 a,
  AlgebraSU8 (K := K) n add_su2 add_su4 = Ok a0 /\ get_all_directions_and_qubits8 a0 = Ok a /\
  complete_algebra n ((if add_su2 then [1] else []) ++ (if add_su4 then [2] else []) ++ [3]) (al_full (al8_core a)) /\
  get_all_directions_and_qubits8 a = Ok a.
Proof.
  intros K SR n b c. destruct (enumerate_spec (K := K) n (ks8 b c)) as (full & E1 & E2 & E3 & E4).
  { apply ks8_NoDup. }
  { intros k Hk. destruct b, c; simpl in Hk; lia. }
  eexists _, _. split; [apply AlgebraSU8_eq|]. unfold core0. rewrite get_all_keys8. fold (core0 (K := K) n (ks8 b c)). rewrite E1. cbn [bind].
  split; [reflexivity|]. cbn [al8_core al_full]. split; [apply complete_intro; auto; apply ks8_NoDup|].
  change (al_paulis (core0 (K := K) n (ks8 b c))) with (combine (wnames (ks8 b c)) (map (op_of (K := K)) (wwords (ks8 b c)))) in *.
  rewrite get_all_keys8. rewrite E4. reflexivity.
Qed.
Print Assumptions C40_su8_enumeration.

Example C40_case :
  match (do a0 <- AlgebraSU4 (K := gq) 3 true; get_all_directions_and_qubits a0) with
  | Ok a => map fst (firstn 12 (al_full (al_core a)))
  | Err _ => []
  end = [("X", [0]); ("X", [1]); ("X", [2]); ("Y", [0]); ("Y", [1]); ("Y", [2]); ("Z", [0]); ("Z", [1]); ("Z", [2]);
         ("XX", [0; 1]); ("XX", [0; 2]); ("XX", [1; 2])]%string.
Proof. vm_compute. reflexivity. Qed.
