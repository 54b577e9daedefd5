(** Lemmas on the layer objects of ApproxModel.v: what a call does to a unitary
    circuit, and when it succeeds. *)
From Coq Require Import ZArith Arith Lia Bool String Reals Lra Ring Setoid Morphisms.
From Coquelicot Require Import Coquelicot.
From Verif Require Import Py StarRing Matrix Cplx PauliSpec Bits PauliBasis Expm UtilsModel UtilsProofs CircuitModel CircuitProofs CircuitProofs2
  AlgebraModel AlgebraProofs PropAlgebra LayerModel LayerProofs LayerProofs2 GreedyModel RotoProofs GreedyProofs AdaptModel AdaptProofs ZasV2Model ZasV2Terms ZasV2Proofs CommuteModel OptimizerModel OptProofs
  FlowModel ShiftModel ApproxModel PropLayers PropAdapt.
From Verif Require PropCircuit.
From Coq Require Import List.
Import ListNotations.
Local Open Scope nat_scope.
Local Open Scope list_scope.

(** ** Loops *)
Lemma foldM_inv {A B} (Q : B -> Prop) (f : B -> A -> res B) l : (forall b a b', In a l -> Q b -> f b a = Ok b' -> Q b') ->
  forall b b', Q b -> foldM f l b = Ok b' -> Q b'.
Proof.
  induction l as [|a l IH]; intros H b b' Hb E; cbn [foldM] in E; [injection E as <-; exact Hb|].
  destruct (f b a) as [b1|] eqn:E1; [|discriminate]. cbn [bind] in E. apply (IH (fun b a b' Hi => H b a b' (or_intror Hi)) b1); [|exact E].
  apply (H b a); [left; reflexivity|exact Hb|exact E1].
Qed.

Lemma mapM_In {A B} (f : A -> res B) l : forall ys y, mapM f l = Ok ys -> In y ys -> exists x, In x l /\ f x = Ok y.
Proof.
  induction l as [|a l IH]; intros ys y E Hy; cbn [mapM] in E; [injection E as <-; destruct Hy|].
  destruct (f a) as [b|] eqn:E1; [|discriminate]. cbn [bind] in E. destruct (mapM f l) as [bs|] eqn:E2; [|discriminate]. injection E as <-.
  destruct Hy as [<-|Hy]; [exists a; auto with datatypes|]. destruct (IH bs y eq_refl Hy) as (x & Hx & Ex). exists x. auto with datatypes.
Qed.

Lemma dget_In_inv {B} (d : list (key * B)) k v : dget key_eqb d k = Ok v -> exists k', In (k', v) d.
Proof.
  induction d as [|[k' w] d IH]; cbn [dget]; [discriminate|]. destruct (key_eqb k' k).
  - intros E. injection E as <-. exists k'. left. reflexivity.
  - intros E. destruct (IH E) as (k2 & H). exists k2. right. exact H.
Qed.

Lemma list_get_In {A} (l : list A) i x : list_get l i = Ok x -> In x l.
Proof. unfold list_get. destruct (nth_error l i) eqn:E; intros H; [injection H as <-; eapply nth_error_In; eauto|discriminate]. Qed.

Lemma replace_at_Forall {A} (Q : A -> Prop) l : forall i x, Forall Q l -> Q x -> Forall Q (replace_at l i x).
Proof.
  induction l as [|a l IH]; intros i x Hl Hx; cbn [replace_at]; [destruct i; constructor|].
  destruct i; constructor; auto; try exact (Forall_inv_tail Hl); try exact (Forall_inv Hl). apply IH; auto. exact (Forall_inv_tail Hl).
Qed.

Lemma replace_at_length {A} (l : list A) : forall i x, List.length (replace_at l i x) = List.length l.
Proof. induction l as [|a l IH]; intros [|i] x; cbn [replace_at List.length]; auto. Qed.

(** ** The Riemannian layers *)
Definition herm (n : nat) (P : arr C) : Prop := hermitian (2 ^ n) (a_ent P).

Lemma group_step_unitary svd check trot n eta phi O g U V : svd_ok svd -> hermitian (2 ^ n) O -> Forall (herm n) g -> unitary2 (2 ^ n) U ->
  group_step svd check trot n eta phi O g U = Ok V -> unitary2 (2 ^ n) V.
Proof.
  intros Hs HO Hg HU E. assert (Hne : trot = true \/ g <> []).
  { destruct trot; [left; reflexivity|right]. intros ->. discriminate. }
  destruct (group_step_spec svd check trot n eta phi O g U Hs HO Hg Hne) as (V' & E' & M). rewrite E in E'. injection E' as <-.
  eapply unitary2_proper; [symmetry; exact M|]. apply apply_gens_unitary; [|exact HU]. apply gens_anti; assumption.
Qed.

Definition local_sound (n : nat) (l : local_layer) : Prop := lc_n l = n /\ Forall (herm n) (lc_observables l) /\ Forall (Forall (herm n)) (lc_full_paulis l).
Definition custom_sound (n : nat) (l : custom_layer) : Prop :=
  cu_n l = n /\ Forall (herm n) (cu_observables l) /\ Forall (fun kv => forall F, snd kv = OMat F -> herm n F) (cu_full_paulis l).
Definition greedy_sound (n : nat) (l : greedy_layer) : Prop := gr_n l = n /\ Forall (fun kv => herm n (snd kv)) (gr_table l).
Definition zas_sound (n : nat) (l : zas_layer) : Prop := za_n l = n /\ Forall (fun kv => herm n (snd kv)) (za_su4 l).
Definition adapt_sound (n : nat) (l : adapt_layer) : Prop := 2 <= n /\ exists table,
  complete_algebra (K := C) n [1; 2] table /\ incl (ad_layers l) moves /\
  l = mkadapt n (su2_list ++ su4_list) table (ad_obs l) (last_dir (ad_layers l)) (ad_layers l).

Lemma local_unitary_call svd n l U V : svd_ok svd -> local_sound n l -> unitary2 (2 ^ n) U -> local_call svd l U = Ok V -> unitary2 (2 ^ n) V.
Proof.
  intros Hs (Hn & HO & Hg) HU. unfold local_call. rewrite Forall_forall in HO, Hg. apply (foldM_inv (unitary2 (2 ^ n))); [|exact HU].
  intros u O u' Hi Hu. apply (foldM_inv (unitary2 (2 ^ n))); [|exact Hu]. intros v g v' Hgi Hv E. rewrite Hn in E.
  eapply group_step_unitary; [exact Hs|apply (HO O Hi)|apply (Hg g Hgi)|exact Hv|exact E].
Qed.

Lemma custom_unitary_call svd n l U V : svd_ok svd -> custom_sound n l -> unitary2 (2 ^ n) U -> custom_call svd l U = Ok V -> unitary2 (2 ^ n) V.
Proof.
  intros Hs (Hn & HO & Hg) HU. unfold custom_call. rewrite Forall_forall in HO. apply (foldM_inv (unitary2 (2 ^ n))); [|exact HU].
  intros u O u' Hi Hu E. destruct (mapM as_array _) as [ps|] eqn:Ep; [|discriminate]. cbn [bind] in E. rewrite Hn in E.
  eapply group_step_unitary; [exact Hs|apply (HO O Hi)| |exact Hu|exact E].
  apply Forall_forall. intros P HP. destruct (mapM_In _ _ _ _ Ep HP) as (o & Ho & Eo). apply in_map_iff in Ho. destruct Ho as (kv & <- & Hkv).
  rewrite Forall_forall in Hg. apply (Hg kv Hkv). destruct (snd kv); [injection Eo as <-; reflexivity|discriminate].
Qed.

(** ** The greedy layers *)
Lemma greedy_unitary n table adm obs U k V e : Forall (fun kv : key * arr C => herm n (snd kv)) table -> unitary2 (2 ^ n) U ->
  greedy_step n table adm obs U = Ok (k, (V, e)) -> unitary2 (2 ^ n) V.
Proof.
  intros Ht HU E. unfold greedy_step in E. destruct (py_max_key _) as [k'|]; [|discriminate]. cbn [bind] in E.
  destruct (dget key_eqb table k') as [P|] eqn:Ed; [|discriminate]. cbn [bind] in E.
  assert (E2 : fst (rotosolve n (a_ent P) obs U (String.length (fst k'))) = V) by (apply (f_equal (fun r => match r with Ok (_, (v, _)) => v | Err _ => V end)) in E; exact E).
  apply dget_In_inv in Ed. destruct Ed as (k2 & Hin). rewrite Forall_forall in Ht. specialize (Ht _ Hin). cbn [snd] in Ht.
  pose proof (roto_unitary n (String.length (fst k')) obs (a_ent P) U Ht HU) as H. rewrite E2 in H. exact H.
Qed.

Lemma squared_unitary_call n l U V l' : greedy_sound n l -> unitary2 (2 ^ n) U -> squared_call l U = Ok (V, l') -> unitary2 (2 ^ n) V /\ greedy_sound n l'.
Proof.
  intros (Hn & Ht) HU E. unfold squared_call in E. destruct (greedy_step _ _ _ _ _) as [[k [W e]]|] eqn:G; [|discriminate]. cbn [bind fst snd] in E. injection E as <- <-.
  rewrite Hn in G. split; [eapply greedy_unitary; eauto|]. split; assumption.
Qed.
Lemma su8_unitary_call n l U V l' : greedy_sound n l -> unitary2 (2 ^ n) U -> su8_call l U = Ok (V, l') -> unitary2 (2 ^ n) V /\ greedy_sound n l'.
Proof.
  intros (Hn & Ht) HU E. unfold su8_call in E. destruct (greedy_step _ _ _ _ _) as [[k [W e]]|] eqn:G; [|discriminate]. cbn [bind fst snd] in E. injection E as <- <-.
  rewrite Hn in G. split; [eapply greedy_unitary; eauto|]. split; assumption.
Qed.

Lemma zas_unitary_call ord n l U V l' : zas_sound n l -> unitary2 (2 ^ n) U -> zas_call ord l U = Ok (V, l') -> unitary2 (2 ^ n) V /\ zas_sound n l'.
Proof.
  intros (Hn & Ht) HU E. unfold zas_call in E. cbv zeta in E. destruct (za_state l).
  - destruct (greedy_step _ _ _ _ _) as [[k [W e]]|] eqn:G; [|discriminate]. cbn [bind] in E. injection E as <- <-. rewrite Hn in G.
    split; [eapply greedy_unitary; eauto|]. split; assumption.
  - destruct (za_current l) as [cur|]; [|discriminate]. destruct (za_prev_eta l) as [oA|]; [|discriminate].
    destruct (dget key_eqb (za_su4 l) cur); [|discriminate]. cbn [bind] in E.
    destruct (foldM _ _ _) as [cs|]; [|discriminate]. cbn [bind] in E.
    destruct (pick_cand _ _) as [[[km B]|]|]; try discriminate. cbn [bind] in E.
    destruct (dget key_eqb (za_su8 l) km); [|discriminate]. cbn [bind] in E.
    destruct (dget key_eqb (cd_su8 cs) km); [|discriminate]. cbn [bind] in E.
    destruct (Req_EM_T oA 0); [discriminate|].
    destruct (dget key_eqb (za_su4 l) B) as [PB|] eqn:EB; [|discriminate]. cbn [bind] in E. injection E as <- <-. split; [|split; assumption].
    rewrite Hn. apply unitary2_mul; [|exact HU]. apply rotation_unitary.
    apply dget_In_inv in EB. destruct EB as (k2 & Hin). rewrite Forall_forall in Ht. apply (Ht _ Hin).
Qed.

(** ** The adaptive layer, for parameters of any shape *)
Lemma layer_gates_any n k row gs : 2 <= n -> In k moves -> layer_gates n k row = Ok gs ->
  Forall (fun g => valid_qop n (gate_qop g) /\ local_unitary (gate_qop g)) gs.
Proof.
  intros Hn Hk E. destruct (moves_word k Hk) as (w & Ew & Hw & Hl & Hlen). destruct k as [d b]. cbn [fst snd] in *. subst d.
  assert (G : forall g, In g gs -> exists t q, g = ARot t (word_name w) q /\ In q (brick_keys n b)).
  { unfold layer_gates in E. cbn [fst snd] in E. rewrite Hlen in E. destruct b; cbn [arity Nat.eqb] in E.
    - intros g Hg. destruct (mapM_In _ _ _ _ E Hg) as (i & Hi & Ei). destruct (list_get row i) as [t|]; [|discriminate]. injection Ei as <-.
      exists t, [i]. split; [reflexivity|]. cbn [brick_keys]. apply in_map_iff. eauto.
    - intros g Hg. destruct (mapM_In _ _ _ _ E Hg) as ([j i] & Hi & Ei). cbn [fst snd] in Ei. destruct (list_get row j) as [t|]; [|discriminate]. injection Ei as <-.
      apply in_combine_r in Hi. exists t, [i; i + 1]. split; [reflexivity|]. cbn [brick_keys]. apply in_map_iff. eauto.
    - destruct (mapM _ _) as [gs'|] eqn:Em; [|discriminate]. cbn [bind] in E. destruct (row_last row) as [t0|]; [|discriminate]. injection E as <-.
      intros g Hg. apply in_app_or in Hg. cbn [brick_keys]. destruct Hg as [Hg|[<-|[]]].
      + destruct (mapM_In _ _ _ _ Em Hg) as ([j i] & Hi & Ei). cbn [fst snd] in Ei. destruct (list_get row j) as [t|]; [|discriminate]. injection Ei as <-.
        apply in_combine_r in Hi. exists t, [i; i + 1]. split; [reflexivity|]. apply in_or_app. left. apply in_map_iff. eauto.
      + exists t0, [0; n - 1]. split; [reflexivity|]. apply in_or_app. right. left. reflexivity. }
  apply Forall_forall. intros g Hg. destruct (G g Hg) as (t & q & -> & Q). destruct (brick_keys_tuple n b q Hn Q) as (L & N & B & _).
  assert (w <> []) by (intros ->; destruct b; discriminate). split; [apply rot_valid; auto; congruence|].
  unfold local_unitary. cbn [gate_qop q_wires q_matrix a_ent]. rewrite word_of_name by auto. rewrite L, Hl.
  apply rotation_unitary. pose proof (pword_herm (K := C) w (letters_le w Hw)) as Hh. rewrite Hl in Hh. exact Hh.
Qed.

Lemma circuit_any n layers p gs : 2 <= n -> incl layers moves -> circuit_vqe n layers p = Ok gs ->
  Forall (fun g => valid_qop n (gate_qop g) /\ local_unitary (gate_qop g)) gs.
Proof.
  intros Hn Hi E. unfold circuit_vqe in E. destruct (mapM _ _) as [gss|] eqn:Em; [|discriminate]. injection E as <-. apply Forall_app. split.
  - apply Forall_forall. intros g Hg. apply in_map_iff in Hg. destruct Hg as (w & <- & Hw). apply in_seq in Hw. split; [|apply hadamard_unitary].
    split; [discriminate|]. cbn [gate_qop q_wires q_matrix]. split; [constructor; [simpl; tauto|constructor]|]. split; [constructor; [lia|constructor]|]. split; reflexivity.
  - apply Forall_concat. apply Forall_forall. intros g Hg. destruct (mapM_In _ _ _ _ Em Hg) as ([j k] & Hjk & Ej). cbn [fst snd] in Ej.
    destruct (list_get p j) as [row|]; [|discriminate]. cbn [bind] in Ej. apply (layer_gates_any n k row); auto. apply Hi. eapply in_combine_r. exact Hjk.
Qed.

Lemma valid_circuit_unitary n (gs : list agate) U : Forall (fun g => valid_qop n (gate_qop g) /\ local_unitary (gate_qop g)) gs ->
  circuit_unitary n (map gate_qop gs) = Ok U -> unitary2 (2 ^ n) (a_ent U).
Proof.
  intros Hg E. rewrite Forall_forall in Hg. destruct (PropCircuit.C39_circuit_unitary C CStar n (map gate_qop gs) []) as (U' & V & W & Fs & EU & _ & _ & _ & _ & _ & _ & Hu & _).
  - apply Forall_forall. intros o Ho. apply in_map_iff in Ho. destruct Ho as (g & <- & Hin). apply (Hg g Hin).
  - constructor.
  - rewrite E in EU. injection EU as <-. apply Hu. apply Forall_forall. intros o Ho. apply in_map_iff in Ho. destruct Ho as (g & <- & Hin). apply (Hg g Hin).
Qed.

Lemma best_move_In value layers k : best_move value layers k -> In k moves.
Proof. intros (_ & l1 & l2 & E & _). rewrite E. apply in_or_app. right. left. reflexivity. Qed.

Lemma adapt_unitary_call opt n l U p V p' l' : adapt_sound n l -> adapt_call opt l U p = Ok (V, p', l') -> unitary2 (2 ^ n) V /\ adapt_sound n l' /\ ad_obs l' = ad_obs l.
Proof.
  intros (Hn & table & Ht & Hi & El) E. rewrite El in E.
  destruct (adapt_call_spec n table (ad_obs l) opt (ad_layers l) U p V p' l' Hn Ht E) as (k & Hk & -> & h & gs & W & Eo & Hin & Eg & EW & ->).
  assert (Hi' : incl (ad_layers l ++ [k]) moves). { apply incl_app; [exact Hi|]. intros y [<-|[]]. eapply best_move_In. exact Hk. }
  split; [|split; [|reflexivity]].
  - apply (valid_circuit_unitary n gs); [|exact EW]. eapply circuit_any; [exact Hn|exact Hi'|exact Eg].
  - split; [exact Hn|]. exists table. cbn [ad_layers ad_obs]. auto.
Qed.

(** ** Layer objects *)
Definition sound (n : nat) (o : layer_obj) : Prop :=
  match o with
  | OLie _ _ => True
  | OLocal l => local_sound n l
  | OCustom l => custom_sound n l
  | OStochastic _ => True
  | OSquared _ l | OSU8 _ l => greedy_sound n l
  | OZassenhaus _ l => zas_sound n l
  | OAdapt _ l => adapt_sound n l
  | OZasV2 _ l => v2_sound n l
  end.

Lemma stochastic_call_fails svd l U V : stochastic_call svd l U = Ok V -> False.
Proof. discriminate. Qed.

Lemma sound_call x n c o U p V p' o' : svd_ok (or_svd x) -> sound n o -> unitary2 (2 ^ n) U -> obj_call x c o U p = Ok (V, p', o') ->
  unitary2 (2 ^ n) V /\ sound n o'.
Proof.
  intros Hs Ho HU E. destruct o as [m obs|l|l|l|obs l|obs l|obs l|obs l|obs l]; cbn [obj_call sound] in *; cbv zeta in E.
  - discriminate.
  - destruct (local_call _ l U) as [W|] eqn:E1; [|discriminate]. injection E as <- <- <-. split; [|exact Ho]. eapply local_unitary_call; eauto.
  - destruct (custom_call _ l U) as [W|] eqn:E1; [|discriminate]. injection E as <- <- <-. split; [|exact Ho]. eapply custom_unitary_call; eauto.
  - destruct (stochastic_call _ l U) as [W|] eqn:E1; [|discriminate]. exfalso. eapply stochastic_call_fails. exact E1.
  - destruct c.
    + destruct (or_bounds x) as [[fa fh] fk]. destruct (commute_call _ _ _ _ _ _ _ _); discriminate.
    + destruct (squared_call l U) as [[W l']|] eqn:E1; [|discriminate]. cbn [bind fst snd] in E. injection E as <- <- <-. eapply squared_unitary_call; eauto.
  - destruct (su8_call l U) as [[W l']|] eqn:E1; [|discriminate]. cbn [bind fst snd] in E. injection E as <- <- <-. eapply su8_unitary_call; eauto.
  - destruct (zas_call _ l U) as [[W l']|] eqn:E1; [|discriminate]. cbn [bind fst snd] in E. injection E as <- <- <-. eapply zas_unitary_call; eauto.
  - destruct (adapt_call _ l U p) as [[[W q] l']|] eqn:E1; [|discriminate]. cbn [bind] in E. injection E as <- <- <-.
    destruct (adapt_unitary_call _ n l U p W q l' Ho E1) as (H1 & H2 & _). auto.
  - destruct (v2_total (or_minimize x) n l U Ho) as (W & l' & E1 & H1 & H2 & _). rewrite E1 in E. cbn [bind fst snd] in E. injection E as <- <- <-. auto.
Qed.

Lemma sound_set_eta n eta o : sound n o -> sound n (obj_set_eta eta o).
Proof.
  destruct o; try exact (fun H => H). intros (Hn & e & b & t2 & t4 & t8 & Fs & os & p & ps & -> & H). split; [exact Hn|].
  exists eta, b, t2, t4, t8, Fs, os, p, ps. split; [reflexivity|exact H].
Qed.

Lemma store_sound x n c i w U p V p' w' : svd_ok (or_svd x) -> Forall (sound n) w -> unitary2 (2 ^ n) U -> store_call x c i w U p = Ok (V, p', w') ->
  unitary2 (2 ^ n) V /\ Forall (sound n) w'.
Proof.
  intros Hs Hw HU E. unfold store_call in E. destruct (list_get w i) as [o|] eqn:Eo; [|discriminate]. cbn [bind] in E.
  destruct (obj_call x c o U p) as [[[W q] o']|] eqn:Ec; [|discriminate]. cbn [bind] in E. injection E as <- <- <-.
  assert (Ho : sound n o). { apply list_get_In in Eo. rewrite Forall_forall in Hw. auto. }
  destruct (sound_call x n c o U p W q o' Hs Ho HU Ec) as [H1 H2]. split; [exact H1|]. apply replace_at_Forall; assumption.
Qed.

(** ** The constructors *)
Lemma obs_herm n obs : Forall (fits n) obs -> Forall hermitian_obs obs -> exists Fs, mapM (full n) obs = Ok Fs /\ Forall (herm n) Fs.
Proof. intros H1 H2. destruct (obs_full n obs H1 H2) as (Fs & E & _ & H). eauto. Qed.

Lemma local_built n obs locality eta stride ds check trot l : Forall (fits n) obs -> Forall hermitian_obs obs ->
  LocalLieAlgebraLayer n obs locality eta stride ds check trot = Ok l -> local_sound n l.
Proof.
  intros Hf Hh E. destruct (obs_herm n obs Hf Hh) as (Fs & EF & HF).
  destruct (Classical_Prop.classic (local_args_ok n locality eta stride ds)) as [Ha|Ha].
  - destruct (local_init n obs Fs locality eta stride ds check trot EF Ha) as (gs & E' & Hg). rewrite E in E'. injection E' as ->.
    split; [reflexivity|]. split; [exact HF|]. eapply groups_hermitian. exact Hg.
  - rewrite (local_reject n obs Fs locality eta stride ds check trot EF Ha) in E. discriminate.
Qed.

Lemma eta_rejected {A} eta (f : unit -> res A) l : bind (py_assert (Rleb 0 eta && Rleb eta 1)) f = Ok l -> (0 <= eta <= 1)%R.
Proof. intros E. apply eta_ok. destruct (Rleb 0 eta && Rleb eta 1); [reflexivity|discriminate]. Qed.

Lemma custom_built n obs ds eta check trot l : Forall (fits n) obs -> Forall hermitian_obs obs ->
  CustomDirectionLieAlgebraLayer n obs ds eta check trot = Ok l -> custom_sound n l.
Proof.
  intros Hf Hh E. destruct (obs_herm n obs Hf Hh) as (Fs & EF & HF). destruct (su4_table n true) as (t & Et & Hk & Ht).
  assert (He : (0 <= eta <= 1)%R). { unfold CustomDirectionLieAlgebraLayer in E. rewrite EF in E. cbn [bind] in E. eapply eta_rejected. exact E. }
  rewrite (custom_init n obs Fs eta ds check trot t Et Hk EF He) in E. destruct ds as [l0|].
  - destruct (forallb _ l0); [|discriminate]. injection E as <-. split; [reflexivity|]. split; [exact HF|]. cbn [cu_full_paulis].
    apply Forall_forall. intros kv Hkv F EFv. apply in_map_iff in Hkv. destruct Hkv as (kP & <- & Hin). cbn [snd] in EFv. injection EFv as <-.
    pose proof (kept_hermitian n l0 t Ht) as H. rewrite Forall_forall in H. apply H. apply in_map. exact Hin.
  - injection E as <-. split; [reflexivity|]. split; [exact HF|]. cbn [cu_full_paulis].
    apply Forall_forall. intros kv Hkv F EFv. apply in_map_iff in Hkv. destruct Hkv as (kP & <- & Hin). discriminate.
Qed.

Lemma table_herm n (t : list (key * arr C)) : Forall (key_ok n) t -> Forall (fun kv => herm n (snd kv)) t.
Proof. apply Forall_impl. intros kv. apply key_ok_hermitian. Qed.

Lemma squared_built n obs eta l : Forall (fits n) obs -> SquaredLieAlgebraLayer n obs eta = Ok l -> greedy_sound n l.
Proof.
  intros Hf E. destruct (mapM_full n obs Hf) as (Fs & EF & _).
  assert (He : (0 <= eta <= 1)%R). { unfold SquaredLieAlgebraLayer in E. rewrite EF in E. cbn [bind] in E. eapply eta_rejected. exact E. }
  destruct (squared_init n obs Fs eta EF He) as (t & E' & _ & Ht). rewrite E in E'. injection E' as ->. split; [reflexivity|]. apply table_herm. exact Ht.
Qed.

Lemma su8_built n obs eta b c l : Forall (fits n) obs -> SU8_AlgebraLayer n obs eta b c = Ok l -> greedy_sound n l /\ 3 <= n.
Proof.
  intros Hf E. destruct (mapM_full n obs Hf) as (Fs & EF & _).
  assert (He : (0 <= eta <= 1)%R). { unfold SU8_AlgebraLayer in E. rewrite EF in E. cbn [bind] in E. eapply eta_rejected. exact E. }
  assert (Hn : 3 <= n). { unfold SU8_AlgebraLayer in E. rewrite EF in E. cbn [bind] in E. destruct (py_assert _); [|discriminate]. cbn [bind] in E.
    destruct (Nat.leb 3 n) eqn:En; [apply Nat.leb_le; exact En|discriminate]. }
  destruct (su8_init n obs Fs eta b c EF He Hn) as (t & E' & _ & Ht). rewrite E in E'. injection E' as ->. split; [|exact Hn]. split; [reflexivity|]. apply table_herm. exact Ht.
Qed.

Lemma zas_built n obs eta b c ratio l : Forall (fits n) obs -> ZassenhausLayer n obs eta b c ratio = Ok l -> zas_sound n l.
Proof.
  intros Hf E. destruct (mapM_full n obs Hf) as (Fs & EF & _).
  assert (He : (0 <= eta <= 1)%R). { unfold ZassenhausLayer in E. rewrite EF in E. cbn [bind] in E. eapply eta_rejected. exact E. }
  assert (Hn : 3 <= n). { unfold ZassenhausLayer in E. rewrite EF in E. cbn [bind] in E. destruct (py_assert _); [|discriminate]. cbn [bind] in E.
    destruct (Nat.leb 3 n) eqn:En; [apply Nat.leb_le; exact En|discriminate]. }
  destruct (zas_init n obs Fs eta b c ratio EF He Hn) as (t4 & t8 & E' & _ & Ht & _). rewrite E in E'. injection E' as ->. split; [reflexivity|]. apply table_herm. exact Ht.
Qed.

Lemma adapt_built n obs eta l : Forall (fits n) obs -> 2 <= n -> AdaptVQELayer n obs eta = Ok l -> adapt_sound n l.
Proof.
  intros Hf Hn E. destruct (mapM_full n obs Hf) as (Fs & EF & _).
  assert (He : (0 <= eta <= 1)%R). { unfold AdaptVQELayer in E. rewrite EF in E. cbn [bind] in E. eapply eta_rejected. exact E. }
  destruct (adapt_init n obs Fs eta EF He) as (t & E' & Ht). rewrite E in E'. injection E' as ->. split; [exact Hn|]. exists t. split; [exact Ht|].
  split; [intros y []|reflexivity].
Qed.

(** ** The optimizer inside the adaptive layer *)
Lemma enum_length {A} (l : list A) : List.length (enum l) = List.length l.
Proof. unfold enum. rewrite combine_length, seq_length. lia. Qed.

Lemma enum_map_snd {A B} (f : A -> B) (l : list A) : map (fun p => f (snd p)) (enum l) = map f l.
Proof.
  unfold enum. generalize 0. induction l as [|a l IH]; intros s; [reflexivity|]. cbn [List.length seq combine map snd]. f_equal. apply IH.
Qed.

Lemma gd_shape cost eta p p' : gd_step cost eta p = Ok p' -> same_shape p p'.
Proof.
  unfold gd_step. destruct (cost p); [|discriminate]. intros E. injection E as <-. unfold same_shape. rewrite map_map.
  rewrite <- (enum_map_snd (@List.length R) p). apply map_ext. intros jr. rewrite map_length, enum_length. reflexivity.
Qed.

Lemma same_shape_trans p q r : same_shape p q -> same_shape q r -> same_shape p r.
Proof. unfold same_shape. congruence. Qed.

Definition layer_args : ps_args := mkps 40 (/ 100) (Fin (/ 100000)) false (PyBool true).

Lemma layer_validate : ps_validate RetPlain [("return_params"%string, PyBool true); ("eta"%string, PyFloat (Fin (/ 100))); ("tol"%string, PyFloat (Fin (/ 100000)))] = Ok layer_args.
Proof.
  unfold ps_validate. cbn [bind kw_get find fst snd String.eqb Ascii.eqb Bool.eqb].
  assert (E1 : check (is_int (PyInt 40)) (Fin 1) (PyInt 40) PInf = Ok tt).
  { unfold check. cbn. unfold Rleb. destruct (Rle_dec 1 (IZR 40)) as [_|H]; [reflexivity|exfalso; apply H; lra]. }
  assert (E2 : check (is_float (PyFloat (Fin (/ 100)))) (Fin 0) (PyFloat (Fin (/ 100))) (Fin 1) = Ok tt).
  { unfold check. cbn. unfold Rleb. destruct (Rle_dec 0 (/ 100)) as [_|H]; [|exfalso; apply H; lra].
    destruct (Rle_dec (/ 100) 1) as [_|H]; [reflexivity|exfalso; apply H; lra]. }
  assert (E3 : check (is_float (PyFloat (Fin (/ 100000)))) (Fin 0) (PyFloat (Fin (/ 100000))) PInf = Ok tt).
  { unfold check. cbn. unfold Rleb. destruct (Rle_dec 0 (/ 100000)) as [_|H]; [reflexivity|exfalso; apply H; lra]. }
  rewrite E1. cbn [bind]. rewrite E2. cbn [bind]. rewrite E3. reflexivity.
Qed.

Definition shape_inv {St} (p : rows) (i : nat) (v : ps_vars (St := St) (P := rows)) : Prop :=
  same_shape p (pv_params v) /\ pv_pps v <> [] /\ Forall (same_shape p) (pv_pps v) /\ List.length (pv_costs v) = S i.

Lemma shape_body n obs circ p i v r : shape_inv p i v -> ps_body (gd_step (vqe_cost n obs circ)) (vqe_cost n obs circ) (vqe_state n circ) layer_args i v = Ok r ->
  shape_inv p (S i) (fst r).
Proof.
  intros (H1 & H2 & H3 & H4) E. unfold ps_body in E. destruct (gd_step _ _ _) as [q|] eqn:Eq; [|discriminate]. cbn [bind] in E.
  apply gd_shape in Eq. destruct (vqe_cost n obs circ q) as [c|]; [|discriminate]. cbn [bind layer_args ps_state ps_params truthy] in E.
  assert (G : shape_inv p (S i) (mkpsv q (pv_costs v ++ [c]) (pv_states v) (pv_pps v ++ [q]))).
  { split; [eapply same_shape_trans; eassumption|]. cbn [pv_pps pv_costs]. split; [intros E'; apply app_eq_nil in E'; destruct E'; discriminate|].
    split; [apply Forall_app; split; [exact H3|constructor; [eapply same_shape_trans; eassumption|constructor]]|]. rewrite app_length, H4. simpl. lia. }
  destruct (2 <? i).
  - destruct (from_end _ 1) as [c1|]; [|discriminate]. destruct (from_end _ 2) as [c2|]; [|discriminate]. cbn [bind] in E. injection E as <-. exact G.
  - injection E as <-. exact G.
Qed.

Lemma layer_optimizer_shape n obs : keeps_shape (layer_optimizer n obs).
Proof.
  intros circ p h E. unfold layer_optimizer, shift_optimizer, parameter_shift_optimizer in E. rewrite layer_validate in E. cbn [bind] in E.
  unfold ps_run in E. cbn [layer_args ps_state ps_params truthy bind] in E. destruct (vqe_cost n obs circ p) as [c|] eqn:Ec; [|discriminate]. cbn [bind] in E.
  destruct (for_range _ _ _ _) as [v|] eqn:Ev; [|discriminate]. cbn [bind] in E.
  assert (Inv : shape_inv p 0 (mkpsv p [c] ([] : list (nat -> C)) [p])).
  { split; [reflexivity|]. cbn. split; [discriminate|]. split; [constructor; [reflexivity|constructor]|reflexivity]. }
  destruct (for_range_spec _ (shape_inv p) (shape_inv p)
    (fun i v v' Hi E => shape_body n obs circ p i v (v', false) Hi E) (fun i v v' Hi E => shape_body n obs circ p i v (v', true) Hi E) _ _ _ _ Inv Ev) as [Hv|(j & _ & Hv)];
    destruct Hv as (_ & Hne & Hs & _).
  all: cbn [sum_below_one number bind] in E; destruct (Rlt_dec _ 1); [discriminate|]; cbn [select] in E; injection E as <-; split; assumption.
Qed.

Lemma layer_optimizer_works n obs : Forall (fits n) obs -> works n (layer_optimizer n obs).
Proof.
  intros Hf circ p Hc.
  assert (Hcost : forall q, same_shape p q -> exists c, vqe_cost n obs circ q = Ok c).
  { intros q Hq. destruct (Hc q Hq) as (gs & Eg & Hg). unfold vqe_cost. rewrite Eg. cbn [bind].
    destruct (circuit_unitary_spec n (map gate_qop gs) Hg) as (W & EW & _). rewrite EW. cbn [bind].
    unfold exact_cost. generalize 0%R. clear -Hf. induction Hf as [|o r Ho Hr IH]; intros c0; cbn [foldM]; [eauto|].
    destruct (full_ok n o Ho) as (F & E & _). unfold expval at 1. rewrite E. cbn [bind]. apply IH. }
  unfold layer_optimizer, shift_optimizer, parameter_shift_optimizer. rewrite layer_validate. cbn [bind].
  unfold ps_run. cbn [layer_args ps_state ps_params truthy bind]. destruct (Hcost p eq_refl) as (c & Ec). rewrite Ec. cbn [bind].
  assert (Inv : shape_inv p 0 (mkpsv p [c] ([] : list (nat -> C)) [p])).
  { split; [reflexivity|]. cbn. split; [discriminate|]. split; [constructor; [reflexivity|constructor]|reflexivity]. }
  destruct (for_range_total (ps_body (gd_step (vqe_cost n obs circ)) (vqe_cost n obs circ) (vqe_state n circ) layer_args) (shape_inv p)) with
    (k := ps_nsteps layer_args) (i := 0) (v := mkpsv p [c] ([] : list (nat -> C)) [p]) as (v & Ev).
  - intros i v Hv. unfold ps_body. assert (Hv' := Hv). destruct Hv' as (H1 & _ & _ & H4). unfold gd_step. destruct (Hcost _ H1) as (c0 & E0). rewrite E0. cbn [bind].
    set (q := map _ (enum (pv_params v))).
    assert (Hq : same_shape (pv_params v) q). { apply (gd_shape (vqe_cost n obs circ) (ps_eta layer_args)). unfold gd_step. rewrite E0. reflexivity. }
    destruct (Hcost q (same_shape_trans _ _ _ H1 Hq)) as (c1 & E1). rewrite E1. cbn [bind layer_args ps_state]. destruct (2 <? i) eqn:Ei; [|eauto].
    rewrite (from_end_nth _ 1 0%R), (from_end_nth _ 2 0%R); [|rewrite app_length; simpl; lia|rewrite app_length; simpl; lia]. cbn [bind]. eauto.
  - intros i v v' Hv Eb. exact (shape_body n obs circ p i v (v', false) Hv Eb).
  - exact Inv.
  - match type of Ev with ?L = _ => match goal with |- context [for_range ?b ?i ?k ?w] => change (for_range b i k w) with L end end. rewrite Ev. cbn [bind sum_below_one number]. destruct (Rlt_dec _ 1) as [H|_]; [exfalso; cbn in H; lra|]. eexists. reflexivity.
Qed.

(** ** A run whose operations succeed on the states it goes through *)
Section Run.
Context {St P Om U Z W : Type}.
Variables (call : nat -> W -> U -> P -> res (U * P * W)) (su_state : nat -> W -> res Z) (directions : nat -> W -> U -> res Om).
Variables (cost : U -> res R) (state : U -> res St) (perturb : R -> nat -> U -> U).
Variables (a : ap_args) (Q : W -> U -> P -> Prop).
Hypothesis Hne : ap_layers a <> [].
Hypothesis Hcall : forall l w u p, In l (ap_layers a) -> Q w u p -> exists u' p' w', call l w u p = Ok (u', p', w') /\ Q w' u' p'.
Hypothesis Hz : forall l w u p, In l (ap_layers a) -> Q w u p -> exists z, su_state l w = Ok z.
Hypothesis Hd : ap_omegas a = true -> forall l w u p, In l (ap_layers a) -> Q w u p -> exists o, directions l w u = Ok o.
Hypothesis Hc : forall w u p, Q w u p -> exists c, cost u = Ok c.
Hypothesis Hs : forall w u p, Q w u p -> exists s, state u = Ok s.
Hypothesis Hp : forall e s w u p, Q w u p -> Q w (perturb e s u) p.

Definition run_inv (i : nat) (v : ap_vars (St := St) (P := P) (Om := Om) (U := U) (Z := Z) (W := W)) : Prop :=
  Q (av_w v) (av_u v) (av_params v) /\ List.length (av_costs v) = S i /\ incl (av_rest v) (ap_layers a).

Lemma run_body i v : run_inv i v -> exists v' b, ap_body call su_state directions cost state perturb a i v = Ok (v', b) /\ run_inv (S i) v'.
Proof.
  intros (H1 & H2 & H3). unfold ap_body.
  assert (Hn : exists l r, cycle_next (ap_layers a) (av_rest v) = Ok (l, r) /\ In l (ap_layers a) /\ incl r (ap_layers a)).
  { unfold cycle_next. destruct (av_rest v) as [|l r].
    - destruct (ap_layers a) as [|l r]; [contradiction|]. exists l, r. split; [reflexivity|]. split; [left; reflexivity|intros x Hx; right; exact Hx].
    - exists l, r. split; [reflexivity|]. split; [apply H3; left; reflexivity|intros x Hx; apply H3; right; exact Hx]. }
  destruct Hn as (l & r & En & Hl & Hr). rewrite En. cbn [bind fst snd].
  assert (Ez : exists zs, (if ap_zassenhaus a then do z <- su_state l (av_w v); Ok (av_zas v ++ [z]) else Ok (av_zas v)) = Ok zs).
  { destruct (Hz l _ _ _ Hl H1) as (z & Ez). rewrite Ez. destruct (ap_zassenhaus a); eexists; reflexivity. }
  destruct Ez as (zs & Ez). rewrite Ez. cbn [bind]. destruct (Hcall l _ _ _ Hl H1) as (u & p & w & Ec & HQ). rewrite Ec. cbn [bind].
  destruct (Hc _ _ _ HQ) as (c & E4). rewrite E4. cbn [bind].
  assert (Es : exists ss, (if ap_state a then do s <- state u; Ok (av_states v ++ [s]) else Ok (av_states v)) = Ok ss).
  { destruct (Hs _ _ _ HQ) as (s & E). rewrite E. destruct (ap_state a); eexists; reflexivity. }
  destruct Es as (ss & Es). rewrite Es. cbn [bind].
  assert (Eo : exists os, (if ap_omegas a then do o <- directions l w u; Ok (av_omegas v ++ [o]) else Ok (av_omegas v)) = Ok os).
  { destruct (ap_omegas a) eqn:E; [|eexists; reflexivity]. destruct (Hd eq_refl l _ _ _ Hl HQ) as (o & Eo). rewrite Eo. eexists. reflexivity. }
  destruct Eo as (os & Eo). rewrite Eo. cbn [bind].
  assert (Hl2 : List.length (av_costs v ++ [c]) = S (S i)) by (rewrite app_length; simpl; lia).
  assert (R1 : forall us ps, run_inv (S i) (mkapv r w u p (av_costs v ++ [c]) ss os us ps zs)) by (intros; split; [exact HQ|split; [exact Hl2|exact Hr]]).
  assert (R2 : forall us ps e s, run_inv (S i) (mkapv r w (perturb e s u) p (av_costs v ++ [c]) ss os us ps zs)) by (intros; split; [apply Hp; exact HQ|split; [exact Hl2|exact Hr]]).
  destruct (ap_tol a) as [tol|]; [|eauto]. destruct (8 <? i) eqn:Ei; [|eauto]. apply Nat.ltb_lt in Ei.
  rewrite (from_end_nth _ 1 0%R), (from_end_nth _ 6 0%R) by lia. cbn [bind]. destruct (isclose _ _ _); [|eauto]. destruct (ap_perturb a); eauto.
Qed.

Lemma run_ok w0 u0 p0 : Q w0 u0 p0 -> exists r, ap_run call su_state directions cost state perturb a w0 u0 p0 = Ok r.
Proof.
  intros H0. unfold ap_run. destruct (Hc _ _ _ H0) as (c & Ec). destruct (Hs _ _ _ H0) as (s & Es). rewrite Es, Ec.
  assert (L : forall ss, exists v, for_range (ap_body call su_state directions cost state perturb a) 0 (ap_nsteps a) (mkapv [] w0 u0 p0 [c] ss [] (if ap_unitary a then [u0] else []) [] []) = Ok v).
  { intros ss. apply (for_range_total _ run_inv).
    - intros i v Hv. destruct (run_body i v Hv) as (v' & b & E & _). eauto.
    - intros i v v' Hv E. destruct (run_body i v Hv) as (v2 & b & E2 & H2). rewrite E in E2. injection E2 as <- _. exact H2.
    - split; [exact H0|]. split; [reflexivity|intros x []]. }
  destruct (ap_state a); cbn [bind]; [destruct (L [s]) as (v & Ev)|destruct (L []) as (v & Ev)]; rewrite Ev; cbn [bind]; destruct (_ <? 1); eauto.
Qed.
End Run.
