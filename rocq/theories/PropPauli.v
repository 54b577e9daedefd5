(** Properties C01-C10 and C16: Pauli and PauliMonomial. *)
From Coq Require Import List Arith ZArith QArith Qcanon Bool Lia Permutation Sorted String.
From Verif Require Import Py StarRing Matrix GaussQ PauliSpec PauliModel PauliSem PauliProofs PauliProofs2.
Import ListNotations.
Local Open Scope nat_scope.

(** A two-site monomial i * Y(2) Z(5) and an overlapping one, used as concrete cases. *)
Definition ex_a : mono :=
  mk_mono [{| p_alpha := 2; p_gamma := 2; p_coeff := gi |}; {| p_alpha := 5; p_gamma := 3; p_coeff := g1 |}].
Definition ex_b : mono :=
  mk_mono [{| p_alpha := 0; p_gamma := 1; p_coeff := g1 |}; {| p_alpha := 2; p_gamma := 1; p_coeff := gofQ (1 # 2) |}].
Example ex_a_init : mono_init [{| p_alpha := 5; p_gamma := 3; p_coeff := g1 |};
                               {| p_alpha := 2; p_gamma := 2; p_coeff := gi |}] = Ok ex_a.
Proof. rewrite mono_init_ok; [reflexivity|]. repeat constructor; simpl; intuition lia. Qed.
Example ex_a_fresh : fresh ex_a.
Proof.
  eexists; split; [|exact ex_a_init].
  repeat (constructor; [apply valid_constructible; unfold valid; simpl; lia|]). constructor.
Qed.
Example ex_b_fresh : fresh ex_b.
Proof.
  apply fresh_wfc. split; [split; [reflexivity|split]|reflexivity].
  - repeat constructor; simpl; lia.
  - repeat (constructor; [unfold valid; simpl; lia|]). constructor.
Qed.
Example ex_below : sites_below 6 ex_a /\ sites_below 6 ex_b.
Proof. split; repeat constructor. Qed.
Example ex_rev : reorders (@rev nat).
Proof. intros l. apply Permutation_sym, Permutation_rev. Qed.

(** C01 *)
Theorem C01_pauli_product : forall p q, constructible p -> constructible q ->
  (p_alpha p = p_alpha q ->
     exists r, Pauli_mul p q = Ok r /\ constructible r /\ p_alpha r = p_alpha p /\
               meq 2 (pauli_mat r) (mmul 2 (pauli_mat p) (pauli_mat q))) /\
  (p_alpha p <> p_alpha q -> Pauli_mul p q = Err AssertionError).
Proof. exact Pauli_mul_spec. Qed.
Print Assumptions C01_pauli_product.

Example C01_case : constructible {| p_alpha := 3; p_gamma := 2; p_coeff := gi |}.
Proof. exists 3%Z, (GStr "Y"), (CNum gi). reflexivity. Qed.

(** C02 *)
Theorem C02_monomial_construction : forall ps,
  (NoDup (map p_alpha ps) ->
     exists m, mono_init ps = Ok m /\ Permutation (m_paulis m) ps /\
       StronglySorted lt (map p_alpha (m_paulis m)) /\
       m_locs m = map p_alpha (m_paulis m) /\
       m_coeff m = fold_right (fun p c => gmul (p_coeff p) c) g1 ps) /\
  (~ NoDup (map p_alpha ps) -> mono_init ps = Err AssertionError) /\
  (forall ps', Permutation ps ps' -> mono_init ps' = mono_init ps).
Proof. exact mono_init_spec. Qed.
Print Assumptions C02_monomial_construction.

Example C02_case : NoDup (map p_alpha (m_paulis ex_a)).
Proof. repeat constructor; simpl; intuition lia. Qed.

(** C03 *)
Theorem C03_monomial_product : forall ord a b n, reorders ord -> fresh a -> fresh b ->
  sites_below n a -> sites_below n b ->
  exists c, mono_mul ord a b = Ok c /\ sites_below n c /\
    meq (2 ^ n) (denote n c) (mmul (2 ^ n) (denote n a) (denote n b)).
Proof. exact mono_mul_spec. Qed.
Print Assumptions C03_monomial_product.

Example C03_case : reorders (@rev nat) /\ fresh ex_a /\ fresh ex_b /\ sites_below 6 ex_a /\ sites_below 6 ex_b.
Proof. exact (conj ex_rev (conj ex_a_fresh (conj ex_b_fresh ex_below))). Qed.

(** C04 (objects are values in this part of the model, so [a] and [b] cannot change) *)
Theorem C04_product_wellformed : forall ord a b, reorders ord -> fresh a -> fresh b ->
  exists c, mono_mul ord a b = Ok c /\ fresh c /\
    StronglySorted lt (m_locs c) /\ (forall s, In s (m_locs c) <-> In s (m_locs a) \/ In s (m_locs b)) /\
    m_locs c = map p_alpha (m_paulis c) /\
    m_coeff c = fold_right (fun p x => gmul (p_coeff p) x) g1 (m_paulis c) /\
    (forall ord', reorders ord' -> mono_mul ord' a b = Ok c).
Proof. exact mono_mul_wf_spec. Qed.
Print Assumptions C04_product_wellformed.

Example C04_case : exists c, mono_mul (@rev nat) ex_a ex_b = Ok c /\ m_locs c = [0; 2; 5].
Proof. eexists; split; [vm_compute; reflexivity|reflexivity]. Qed.

(** C05 *)
Theorem C05_commutator : forall ord a b n, reorders ord -> fresh a -> fresh b ->
  sites_below n a -> sites_below n b ->
  exists c, mono_commutator ord a b = Ok c /\
    meq (2 ^ n) (denote n c) (msub (mmul (2 ^ n) (denote n a) (denote n b))
                                   (mmul (2 ^ n) (denote n b) (denote n a))).
Proof. exact commutator_spec. Qed.
Print Assumptions C05_commutator.

Example C05_case : exists c, mono_commutator ord_id ex_a ex_b = Ok c /\ geqb (m_coeff c) g1 = true.
Proof. eexists; split; [reflexivity|vm_compute; reflexivity]. Qed.

(** C06 *)
Theorem C06_commutes_with : forall ord a b n, reorders ord -> fresh a -> fresh b ->
  sites_below n a -> sites_below n b ->
  exists r, mono_commutes_with ord a b = Ok r /\
    (r = true <-> meq (2 ^ n) (mmul (2 ^ n) (denote n a) (denote n b))
                              (mmul (2 ^ n) (denote n b) (denote n a))) /\
    (m_coeff a <> g0 -> m_coeff b <> g0 -> (r = true <-> Nat.Even (clashes n a b))).
Proof. exact commutes_spec. Qed.
Print Assumptions C06_commutes_with.

Example C06_case : mono_commutes_with ord_id ex_a ex_b = Ok false /\ clashes 6 ex_a ex_b = 1.
Proof. split; vm_compute; reflexivity. Qed.

(** C07 *)
Theorem C07_equality_and_hash : forall a b,
  (List.length (m_paulis a) <> List.length (m_paulis b) -> mono_eq a b = Err AssertionError) /\
  (List.length (m_paulis a) = List.length (m_paulis b) ->
     exists r, mono_eq a b = Ok r /\
       (r = true <-> isreal (m_coeff a) = isreal (m_coeff b) /\
          map (fun p => (p_alpha p, p_gamma p)) (m_paulis a) =
          map (fun p => (p_alpha p, p_gamma p)) (m_paulis b)) /\
       (r = true <-> mono_hash_text a = mono_hash_text b)).
Proof. exact mono_eq_spec. Qed.
Print Assumptions C07_equality_and_hash.

Theorem C07_equivalence :
  (forall a, mono_eq a a = Ok true) /\
  (forall a b, mono_eq a b = Ok true -> mono_eq b a = Ok true) /\
  (forall a b c, mono_eq a b = Ok true -> mono_eq b c = Ok true -> mono_eq a c = Ok true).
Proof. exact mono_eq_equiv. Qed.
Print Assumptions C07_equivalence.

Example C07_case : mono_eq ex_a ex_b = Ok false /\ mono_hash_text ex_a = "imS(2,2) S(5,3)"%string.
Proof. split; vm_compute; reflexivity. Qed.

(** C08: false; equal Pauli objects can be hashed from different texts *)
Theorem C08_pauli_hash_refuted : exists p q, constructible p /\ constructible q /\ Pauli_eq p q = true /\
  forall show, Pauli_repr show p <> Pauli_repr show q.
Proof. exact pauli_hash_refuted. Qed.
Print Assumptions C08_pauli_hash_refuted.

(** C08, what remains: same coefficient as well. *)
Theorem C08_pauli_hash_partial : forall p q show, Pauli_eq p q = true -> p_coeff p = p_coeff q ->
  Pauli_repr show p = Pauli_repr show q.
Proof. exact pauli_hash_partial. Qed.
Print Assumptions C08_pauli_hash_partial.

Example C08_case : Pauli_eq {| p_alpha := 1; p_gamma := 2; p_coeff := gi |}
                            {| p_alpha := 1; p_gamma := 2; p_coeff := gi |} = true.
Proof. reflexivity. Qed.

(** C09: false; [<] is not asymmetric, and incomparable monomials need not be equal *)
Theorem C09_order_refuted :
  (exists a b, fresh a /\ fresh b /\ m_locs a = m_locs b /\ mono_lt a b = true /\ mono_lt b a = true) /\
  (exists a b, fresh a /\ fresh b /\ List.length (m_paulis a) = List.length (m_paulis b) /\
     mono_lt a b = false /\ mono_lt b a = false /\ mono_eq a b = Ok false).
Proof. exact mono_lt_refuted. Qed.
Print Assumptions C09_order_refuted.

(** C09, what remains: among coefficients that are all real or all non-real, and on the same sites. *)
Theorem C09_order_partial :
  (forall a, mono_lt a a = false) /\
  (forall a b, isreal (m_coeff a) = isreal (m_coeff b) ->
     mono_lt a b = true -> mono_lt b a = false) /\
  (forall a b c, isreal (m_coeff a) = isreal (m_coeff b) -> isreal (m_coeff b) = isreal (m_coeff c) ->
     mono_lt a b = true -> mono_lt b c = true -> mono_lt a c = true) /\
  (forall a b, isreal (m_coeff a) = isreal (m_coeff b) ->
     map p_alpha (m_paulis a) = map p_alpha (m_paulis b) ->
     mono_lt a b = false -> mono_lt b a = false -> mono_eq a b = Ok true).
Proof. exact mono_lt_order_partial. Qed.
Print Assumptions C09_order_partial.

(** C09, different numbers of sites: the letters are compared like a dictionary, so a
    proper prefix is smaller whatever the coefficients and sites *)
Theorem C09_prefix_first : forall a b l, l <> [] -> map p_gamma (m_paulis b) = map p_gamma (m_paulis a) ++ l ->
  mono_lt a b = true /\ mono_lt b a = false.
Proof.
  intros a b l Hl E. unfold mono_lt. rewrite E. set (g := map p_gamma (m_paulis a)). assert (N : g <> g ++ l) by (intros H; apply Hl; rewrite <- (app_nil_r g) in H at 1; apply app_inv_head in H; auto).
  destruct (list_eq_dec Nat.eq_dec g (g ++ l)); [tauto|]. destruct (list_eq_dec Nat.eq_dec (g ++ l) g); [congruence|].
  clear -Hl. induction g as [|x g IH]; cbn [app list_lt]; [destruct l; [tauto|auto]|]. rewrite Nat.eqb_refl. exact IH.
Qed.
Print Assumptions C09_prefix_first.
Definition X0Z1 : mono := mk_mono [{| p_alpha := 0; p_gamma := 1; p_coeff := gi |}; {| p_alpha := 1; p_gamma := 3; p_coeff := g1 |}].
Example C09_prefix_case : map p_gamma (m_paulis X0Z1) = map p_gamma (m_paulis (X0 g1)) ++ [3] /\ mono_eq (X0 g1) X0Z1 = Err AssertionError.
Proof. split; vm_compute; reflexivity. Qed.

Example C09_case : isreal (m_coeff (X0 g1)) = isreal (m_coeff (X0 (gofQ (3 # 2)))) /\
  mono_lt (X0 g1) (X0 (gofQ (3 # 2))) = true.
Proof. split; vm_compute; reflexivity. Qed.

(** C10: false after commutator, a change of coeff (scalar_mul, simplify) and conj *)
Theorem C10_commutator_coeff_refuted : exists a b c d r, fresh a /\ fresh b /\ fresh d /\
  mono_commutator ord_id a b = Ok c /\ mono_mul ord_id c d = Ok r /\
  ~ meq (2 ^ 1) (denote 1 r) (mmul (2 ^ 1) (denote 1 c) (denote 1 d)).
Proof. exact coeff_commutator_refuted. Qed.
Print Assumptions C10_commutator_coeff_refuted.

Theorem C10_scaled_coeff_refuted : exists a s d r, fresh a /\ fresh d /\
  mono_mul ord_id (set_coeff a (gmul (m_coeff a) s)) d = Ok r /\
  ~ meq (2 ^ 1) (denote 1 r) (mmul (2 ^ 1) (denote 1 (set_coeff a (gmul (m_coeff a) s))) (denote 1 d)).
Proof. exact coeff_scalar_refuted. Qed.
Print Assumptions C10_scaled_coeff_refuted.

Theorem C10_conj_coeff_refuted : exists a d r, fresh a /\ fresh d /\
  ~ meq (2 ^ 1) (denote 1 (mono_conj a)) (madj (denote 1 a)) /\
  mono_mul ord_id (mono_conj a) d = Ok r /\
  ~ meq (2 ^ 1) (denote 1 r) (mmul (2 ^ 1) (denote 1 (mono_conj a)) (denote 1 d)).
Proof. exact coeff_conj_refuted. Qed.
Print Assumptions C10_conj_coeff_refuted.

(** C10, what remains: any expression built from the constructor and products. *)
Theorem C10_product_expressions_partial : forall ord n e, reorders ord -> mexpr_ok n e ->
  exists m, meval ord e = Ok m /\ fresh m /\ sites_below n m /\
    meq (2 ^ n) (denote n m) (mexpr_mat n e).
Proof. exact meval_spec. Qed.
Print Assumptions C10_product_expressions_partial.

Example C10_case : mexpr_ok 6 (MMul (MMul (MLeaf (m_paulis ex_a)) (MLeaf (m_paulis ex_b))) (MLeaf (m_paulis ex_a))).
Proof.
  simpl. repeat split; repeat constructor; simpl; try lia;
    try (apply valid_constructible; unfold valid; simpl; lia); intuition lia.
Qed.

(** C16 *)
Theorem C16_to_oranssi : forall m, fresh m ->
  exists str ss, mono_to_oranssi m = Ok (str, ss) /\ StronglySorted lt ss /\
    (forall s, In s ss <-> letter_on m s <> 0) /\ String.length str = List.length ss /\
    exists m', rebuild (str, ss) = Ok m' /\ fresh m' /\ m_coeff m' = g1 /\ m_locs m' = ss /\
      forall n, mono_string n m' = mono_string n m.
Proof. exact to_oranssi_spec. Qed.
Print Assumptions C16_to_oranssi.

Example C16_case : mono_to_oranssi ex_a = Ok ("YZ"%string, [2; 5]).
Proof. vm_compute; reflexivity. Qed.
