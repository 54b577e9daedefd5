(** The lowest eigenvalues of the transverse field Ising model on four and six qubits. *)
From Coq Require Import ZArith Arith Lia Bool String Reals Lra Ring.
From Coquelicot Require Import Coquelicot.
From Verif Require Import Py StarRing Matrix Cplx Bits UtilsModel CircuitModel PropFlowRate PropSpectrum TfimModel TfimNum TfimProofs.
From Coq Require Import List.
Import ListNotations.
Local Open Scope nat_scope.
Local Open Scope list_scope.

(** ** The lowest eigenvalues *)
Definition poly4 : list Z := [0; -8192; 0; 16384; 0; -7232; 0; 1136; 0; -60; 0; 1]%Z.
Definition poly6 : list Z := [0; -824633720832; 0; 4784593567744; 0; -8370354388992; 0; 6740514963456; 0; -2969284116480; 0; 782659485696; 0; -129822916608; 0; 13946859520; 0; -982806528; 0; 45306624; 0; -1338240; 0; 24144; 0; -240; 0; 1]%Z.
Lemma kills4 : kills (tfim_table 4) poly4 = true.
Proof. vm_compute. reflexivity. Qed.
Lemma kills6 : kills (tfim_table 6) poly6 = true.
Proof. vm_compute. reflexivity. Qed.
(** integer vectors that span the space of an eigenvector of the lowest eigenvalue *)
Definition vec4A : list Z := [264; -264; -264; 264; -264; 1016; 264; -264; -264; 264; 1016; -264; 264; -264; -264; 264]%Z.
Definition vec4B : list Z := [188; -188; -188; 188; -188; 716; 188; -188; -188; 188; 716; -188; 188; -188; -188; 188]%Z.
Definition vec4C : list Z := [0; -66; -66; 38; -66; 188; 38; -66; -66; 38; 188; -66; 38; -66; -66; 0]%Z.
Definition vec4D : list Z := [0; -47; -47; 28; -47; 132; 28; -47; -47; 28; 132; -47; 28; -47; -47; 0]%Z.
Definition vec6A : list Z := [0; 9464660; 9464660; -6000354; 9464660; -24929674; -6000354; 8536402; 9464660; -13857224; -24929674; 16393272; -6000354; 16393272; 8536402; -6000354; 9464660; -24929674; -13857224; 16393272; -24929674; 87966714; 16393272; -24929674; -6000354; 16393272; 16393272; -13857224; 8536402; -24929674; -6000354; 9464660; 9464660; -6000354; -24929674; 8536402; -13857224; 16393272; 16393272; -6000354; -24929674; 16393272; 87966714; -24929674; 16393272; -13857224; -24929674; 9464660; -6000354; 8536402; 16393272; -6000354; 16393272; -24929674; -13857224; 9464660; 8536402; -6000354; -24929674; 9464660; -6000354; 9464660; 9464660; 0]%Z.
Definition vec6B : list Z := [-5196459; 5196459; 5196459; -5196459; 5196459; -18125425; -5196459; 5196459; 5196459; -10268555; -18125425; 11196813; -5196459; 11196813; 5196459; -5196459; 5196459; -18125425; -10268555; 11196813; -18125425; 61984419; 11196813; -18125425; -5196459; 11196813; 11196813; -10268555; 5196459; -18125425; -5196459; 5196459; 5196459; -5196459; -18125425; 5196459; -10268555; 11196813; 11196813; -5196459; -18125425; 11196813; 61984419; -18125425; 11196813; -10268555; -18125425; 5196459; -5196459; 5196459; 11196813; -5196459; 11196813; -18125425; -10268555; 5196459; 5196459; -5196459; -18125425; 5196459; -5196459; 5196459; 5196459; -5196459]%Z.
Definition vec6C : list Z := [-3000177; 3000177; 3000177; -3000177; 3000177; -10464719; -3000177; 3000177; 3000177; -5928553; -10464719; 6464483; -3000177; 6464483; 3000177; -3000177; 3000177; -10464719; -5928553; 6464483; -10464719; 35786721; 6464483; -10464719; -3000177; 6464483; 6464483; -5928553; 3000177; -10464719; -3000177; 3000177; 3000177; -3000177; -10464719; 3000177; -5928553; 6464483; 6464483; -3000177; -10464719; 6464483; 35786721; -10464719; 6464483; -5928553; -10464719; 3000177; -3000177; 3000177; 6464483; -3000177; 6464483; -10464719; -5928553; 3000177; 3000177; -3000177; -10464719; 3000177; -3000177; 3000177; 3000177; -3000177]%Z.
Definition vec6D : list Z := [0; 5464424; 5464424; -3464306; 5464424; -14393154; -3464306; 4928494; 5464424; -8000472; -14393154; 9464660; -3464306; 9464660; 4928494; -3464306; 5464424; -14393154; -8000472; 9464660; -14393154; 50787606; 9464660; -14393154; -3464306; 9464660; 9464660; -8000472; 4928494; -14393154; -3464306; 5464424; 5464424; -3464306; -14393154; 4928494; -8000472; 9464660; 9464660; -3464306; -14393154; 9464660; 50787606; -14393154; 9464660; -8000472; -14393154; 5464424; -3464306; 4928494; 9464660; -3464306; 9464660; -14393154; -8000472; 5464424; 4928494; -3464306; -14393154; 5464424; -3464306; 5464424; 5464424; 0]%Z.

Notation at_ l i := (nth i l 0%Z).
(** the lists that the matrix gives, computed once *)
Definition lin2 (a : Z) (x : list Z) (b : Z) (y : list Z) : list Z := map (fun p => (a * fst p + b * snd p)%Z) (combine x y).
Lemma lin2_at a x b y i : List.length x = List.length y -> nth i (lin2 a x b y) 0%Z = (a * nth i x 0 + b * nth i y 0)%Z.
Proof.
  revert y i. induction x as [|p x IH]; intros [|q y] i L; try discriminate; [destruct i; cbn; lia|]. destruct i as [|i]; [reflexivity|]. cbn [lin2 combine map nth]. apply (IH y i). injection L as L. exact L.
Qed.
Lemma mul4 : let M := mulvec (tfim_table 4) in M vec4A = lin2 (-16) vec4C (-16) vec4D /\ M vec4B = lin2 (-8) vec4C (-16) vec4D /\ M vec4C = lin2 (-1) vec4A 0 vec4B /\ M vec4D = lin2 (-1) vec4B 0 vec4A.
Proof. intros M. subst M. split; [|split; [|split]]; vm_compute; reflexivity. Qed.
Lemma mul6 : let M := mulvec (tfim_table 6) in M vec6A = lin2 (-12) vec6C (-4) vec6B /\ M vec6B = lin2 (-6) vec6D (-2) vec6A /\ M vec6C = lin2 (-2) vec6A (-2) vec6D /\ M vec6D = lin2 (-4) vec6B (-4) vec6C.
Proof. intros M. subst M. split; [|split; [|split]]; vm_compute; reflexivity. Qed.

Lemma tfim_entries n H : 2 <= n -> get_hamiltonian_matrix n (tfim_observables n) None = Ok H ->
  forall i j, i < List.length (tfim_table n) -> j < List.length (tfim_table n) -> a_ent H i j = zc (nth j (nth i (tfim_table n) []) 0%Z).
Proof. intros Hn EH i j Hi Hj. rewrite table_size in Hi, Hj. rewrite table_entry by assumption. apply tfim_matrix; assumption. Qed.

(** the two lowest eigenvalues *)
Opaque tfim_table.
Definition lowest4 : R := (- sqrt (16 + 8 * sqrt 2))%R.
Definition lowest6 : R := (- (2 * sqrt 2 * (1 + sqrt 3)))%R.
Lemma root_2 : (sqrt 2 * sqrt 2 = 2 /\ 0 < sqrt 2)%R.
Proof. split; [apply sqrt_sqrt; lra|apply sqrt_lt_R0; lra]. Qed.
Lemma root_3 : (sqrt 3 * sqrt 3 = 3 /\ 0 < sqrt 3)%R.
Proof. split; [apply sqrt_sqrt; lra|apply sqrt_lt_R0; lra]. Qed.
Lemma root_4 : (sqrt (16 + 8 * sqrt 2) * sqrt (16 + 8 * sqrt 2) = 16 + 8 * sqrt 2 /\ 0 < sqrt (16 + 8 * sqrt 2))%R.
Proof. destruct root_2. split; [apply sqrt_sqrt; lra|apply sqrt_lt_R0; lra]. Qed.

Lemma lowest_4 H : get_hamiltonian_matrix 4 (tfim_observables 4) None = Ok H -> lowest (2 ^ 4) (a_ent H) lowest4.
Proof.
  intros EH. pose proof (tfim_entries 4 H ltac:(lia) EH) as En. pose proof (table_square 4) as Sq. pose proof (table_size 4) as Sz. destruct root_2 as [Q2 P2]. destruct root_4 as [Q4 P4]. unfold lowest4. set (s := sqrt 2) in *. set (t := sqrt (16 + 8 * s)) in *. clearbody s. clearbody t.
  split.
  - rewrite <- Sz. exists (fun i => RtoC (combo 1 s t (t * s) vec4A vec4B vec4C vec4D i)). split.
    + exists 0. split; [rewrite Sz; cbn; lia|]. intros Q. apply (f_equal Re) in Q. unfold combo in Q. cbn in Q. lra.
    + intros i Hi. rewrite (mul_combo _ Sq _ En i) by (try exact Hi; rewrite Sz; reflexivity). rewrite Sz in Hi. destruct mul4 as (E1 & E2 & E3 & E4). unfold combo. rewrite E1, E2, E3, E4, !lin2_at, !plus_IZR, !mult_IZR by reflexivity.
      generalize (IZR (at_ vec4A i)) (IZR (at_ vec4B i)) (IZR (at_ vec4C i)) (IZR (at_ vec4D i)). intros a b c d. apply C_ext; simpl; [|ring]. clear - Q2 Q4. 
      replace (- t * (1 * a + s * b + t * c + t * s * d) - 0 * 0)%R with (- t * a - s * t * b - (t * t) * c - s * (t * t) * d)%R by ring. rewrite Q4. replace (s * (16 + 8 * s))%R with (16 * s + 16)%R by (replace (s * (16 + 8 * s))%R with (16 * s + 8 * (s * s))%R by ring; rewrite Q2; ring). ring.
  - intros m Hm. rewrite <- Sz in Hm. apply (eigen_root _ Sq _ En m poly4 kills4) in Hm.
    assert (F : (m * (m * m * (m * m) - 32 * (m * m) + 128) * ((m + 2) * (m - 2)) * (m * m - 4 * m - 4) * (m * m + 4 * m - 4) = 0)%R) by (rewrite <- Hm; unfold peval, poly4; cbn [fold_right]; ring).
    clear Hm. destruct (Rle_dec (- t) m) as [L|L]; [exact L|exfalso]. apply Rnot_le_lt in L. assert (S1 : (1.4 < s)%R) by nra. assert (T5 : (5 < t)%R) by nra. assert (M5 : (m < -5)%R) by lra.
    assert (Mt : (16 + 8 * s < m * m)%R) by nra.
    revert F. repeat apply Rmult_integral_contrapositive_currified; nra.
Qed.

Lemma lowest_6 H : get_hamiltonian_matrix 6 (tfim_observables 6) None = Ok H -> lowest (2 ^ 6) (a_ent H) lowest6.
Proof.
  intros EH. pose proof (tfim_entries 6 H ltac:(lia) EH) as En. pose proof (table_square 6) as Sq. pose proof (table_size 6) as Sz. destruct root_2 as [Q2 P2]. destruct root_3 as [Q3 P3]. unfold lowest6. set (s := sqrt 2) in *. set (t := sqrt 3) in *. clearbody s. clearbody t.
  split.
  - rewrite <- Sz. exists (fun i => RtoC (combo 1 s (s * t) t vec6A vec6B vec6C vec6D i)). split.
    + exists 0. split; [rewrite Sz; cbn; lia|]. intros Q. apply (f_equal Re) in Q. unfold combo in Q. cbn in Q. pose proof (Rmult_lt_0_compat _ _ P2 P3). lra.
    + intros i Hi. rewrite (mul_combo _ Sq _ En i) by (try exact Hi; rewrite Sz; reflexivity). rewrite Sz in Hi. destruct mul6 as (E1 & E2 & E3 & E4). unfold combo. rewrite E1, E2, E3, E4, !lin2_at, !plus_IZR, !mult_IZR by reflexivity.
      generalize (IZR (at_ vec6A i)) (IZR (at_ vec6B i)) (IZR (at_ vec6C i)) (IZR (at_ vec6D i)). intros a b c d. apply C_ext; simpl; [|ring]. clear - Q2 Q3.
      replace (- (2 * s * (1 + t)) * (1 * a + s * b + s * t * c + t * d) - 0 * 0)%R with (- 2 * s * (1 + t) * a - 2 * (s * s) * (1 + t) * b - 2 * (s * s) * (t + t * t) * c - 2 * s * (t + t * t) * d)%R by ring. rewrite Q2, Q3. ring.
  - intros m Hm. rewrite <- Sz in Hm. apply (eigen_root _ Sq _ En m poly6 kills6) in Hm.
    assert (F : (m * (m * m - 32) * (m * m * (m * m) - 64 * (m * m) + 256) * (m * m * (m * m) - 16 * (m * m) + 16) * (m * m - 8) * (m * m - 4) * (m * m - 16) * (m * m - 12) * (m * m - 4 * m - 8) * (m * m + 4 * m - 8) * (m * m - 8 * m + 4) * (m * m + 8 * m + 4) = 0)%R) by (rewrite <- Hm; unfold peval, poly6; cbn [fold_right]; ring).
    clear Hm. destruct (Rle_dec (- (2 * s * (1 + t))) m) as [L|L]; [exact L|exfalso]. apply Rnot_le_lt in L.
    assert (S1 : (1.41 < s)%R) by nra. assert (T1 : (1.73 < t < 1.74)%R) by nra. assert (M5 : (m < -7.69)%R) by nra.
    assert (Mt : (32 + 16 * t < m * m)%R).
    { assert (W : (2 * s * (1 + t) * (2 * s * (1 + t)) = 32 + 16 * t)%R) by (replace (2 * s * (1 + t) * (2 * s * (1 + t)))%R with (4 * (s * s) * (1 + 2 * t + t * t))%R by ring; rewrite Q2, Q3; ring). assert (0 < 2 * s * (1 + t))%R by nra. rewrite <- W. nra. }
    revert F. repeat apply Rmult_integral_contrapositive_currified; nra.
Qed.

(** the "Min." line of tfim_su4_adapt_vqe.py *)
Lemma line_close : (0 < adapt_line - lowest4 < 5 / 10 ^ 15)%R.
Proof.
  destruct root_2 as [Q2 P2]. destruct root_4 as [Q4 P4]. unfold adapt_line, lowest4. set (s := sqrt 2) in *. set (t := sqrt (16 + 8 * s)) in *. clearbody s t.
  assert (S1 : (1.414213562373095048801 < s < 1.414213562373095048802)%R) by (split; nra). split; nra.
Qed.
