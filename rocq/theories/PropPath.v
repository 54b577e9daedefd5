(** Property C94: the directories made by save_path_creator, also by several processes at once. *)
From Coq Require Import List Arith Bool Lia Ascii String.
From Verif Require Import PathModel.
Import ListNotations.
Local Open Scope nat_scope.
Local Open Scope string_scope.
Local Open Scope list_scope.

(** ** Specification *)

(** a file system: the root is a directory, and so is the parent of every entry *)
Definition file_system (f : fs) : Prop := f [] = Some KDir /\ forall q c, f (q ++ [c]) <> None -> f q = Some KDir.

(** q is the entry l or one of its ancestors *)
Definition above (q l : list string) : Prop := exists r, l = q ++ r.

(** g is f with some directories from A added *)
Definition grown (A : list string -> Prop) (f g : fs) : Prop := forall q, g q = f q \/ (f q = None /\ g q = Some KDir /\ A q).

(** a process has ended *)
Definition ended (t : prog) : Prop := match t with Ret _ | Raise _ => True | _ => False end.

(** ** Proofs *)
Lemma grown_refl A f : grown A f f.
Proof. intros q. auto. Qed.
Lemma grown_trans (A B C : list string -> Prop) f g h : (forall q, A q -> C q) -> (forall q, B q -> C q) -> grown A f g -> grown B g h -> grown C f h.
Proof. intros HA HB H1 H2 q. destruct (H1 q) as [E|(E1 & E2 & E3)], (H2 q) as [F|(F1 & F2 & F3)]; rewrite ?E, ?F in *; auto; right; try (split; [congruence|split; [congruence|auto]]). Qed.
Lemma grown_keep A f g q k : grown A f g -> f q = Some k -> g q = Some k.
Proof. intros H E. destruct (H q) as [F|(F & _)]; congruence. Qed.
Lemma grown_mono (A B : list string -> Prop) f g : (forall q, A q -> B q) -> grown A f g -> grown B f g.
Proof. intros HA H q. destruct (H q) as [E|(E1 & E2 & E3)]; auto. Qed.

Lemma above_app q r : above q (q ++ r).
Proof. exists r. reflexivity. Qed.
Lemma above_trans a b c : above a b -> above b c -> above a c.
Proof. intros [r ->] [s ->]. exists (r ++ s). apply eq_sym, app_assoc. Qed.
Lemma above_refl a : above a a.
Proof. exists []. apply eq_sym, app_nil_r. Qed.
Lemma above_length a b : above a b -> List.length a <= List.length b.
Proof. intros [r ->]. rewrite app_length. lia. Qed.
Lemma above_eq a b : above a b -> List.length b <= List.length a -> a = b.
Proof. intros [r ->] H. rewrite app_length in H. destruct r; [rewrite app_nil_r; reflexivity|simpl in H; lia]. Qed.

Lemma fs_above f q l : file_system f -> above q l -> q <> l -> f l <> None -> f q = Some KDir.
Proof.
  intros [_ Hp] [r ->]. induction r as [|c r IH] using rev_ind; [rewrite app_nil_r; congruence|]. intros _ H. rewrite app_assoc in H. pose proof (Hp _ _ H) as E.
  destruct r as [|d r]; [rewrite app_nil_r in E; exact E|]. apply IH; [|congruence]. intros E2. apply (f_equal (@List.length _)) in E2. rewrite app_length in E2. simpl in E2. lia.
Qed.

Lemma walk_dir f : file_system f -> forall rest q, f (q ++ rest) = Some KDir -> walk f q rest = None.
Proof.
  intros Hf. induction rest as [|c rest IH]; intros q E; [reflexivity|]. cbn [walk]. replace (q ++ c :: rest) with ((q ++ [c]) ++ rest) in E by (rewrite <- app_assoc; reflexivity).
  assert (E2 : f (q ++ [c]) = Some KDir). { destruct rest as [|d rest]; [rewrite app_nil_r in E; exact E|]. apply (fs_above f _ ((q ++ [c]) ++ d :: rest) Hf); [apply above_app| |congruence]. intros X. apply (f_equal (@List.length _)) in X. rewrite (app_length (q ++ [c])) in X. simpl in X. lia. }
  rewrite E2. apply IH. exact E.
Qed.
Lemma walk_file f : file_system f -> forall rest q, rest <> [] -> f (q ++ rest) = Some KFile -> walk f q rest = Some ENotDir.
Proof.
  intros Hf. induction rest as [|c rest IH]; intros q Hne E; [congruence|]. cbn [walk]. replace (q ++ c :: rest) with ((q ++ [c]) ++ rest) in E by (rewrite <- app_assoc; reflexivity).
  destruct rest as [|d rest]; [rewrite app_nil_r in E; rewrite E; reflexivity|].
  assert (E2 : f (q ++ [c]) = Some KDir). { apply (fs_above f _ ((q ++ [c]) ++ d :: rest) Hf); [apply above_app| |congruence]. intros X. apply (f_equal (@List.length _)) in X. rewrite (app_length (q ++ [c])) in X. simpl in X. lia. }
  rewrite E2. apply IH; [discriminate|exact E].
Qed.

(** paths *)
Lemma names_app p q : names (p ++ q) = names p ++ names q.
Proof. unfold names. induction p as [|c p IH]; [reflexivity|]. cbn [app filter]. destruct (negb (String.eqb c "") && negb (String.eqb c ".")); cbn [app]; rewrite IH; reflexivity. Qed.
Lemma names_blank m : names (repeat "" m) = [].
Proof. induction m; [reflexivity|exact IHm]. Qed.
Lemma names_blanks h : forallb (fun c => String.eqb c "") h = true -> names h = [].
Proof. induction h as [|c h IH]; [reflexivity|]. cbn. intros H. apply andb_true_iff in H. destruct H as [-> H]. exact (IH H). Qed.
Lemma drop_empty_spec r : exists m, r = repeat "" m ++ drop_empty r /\ (drop_empty r = [] \/ exists t r', drop_empty r = t :: r' /\ t <> "").
Proof.
  induction r as [|c r IH]; [exists 0; auto|]. cbn [drop_empty]. destruct (String.eqb_spec c "") as [->|N].
  - destruct IH as (m & E & H). exists (S m). split; [cbn; congruence|exact H].
  - exists 0. split; [reflexivity|]. right. eauto.
Qed.
Lemma repeat_rev {X} (x : X) m : rev (repeat x m) = repeat x m.
Proof. induction m as [|m IH]; [reflexivity|]. cbn [repeat rev]. rewrite IH. clear. induction m as [|m IH]; [reflexivity|]. cbn. rewrite IH. reflexivity. Qed.
Lemma rstrip_spec p : exists m, p = rstrip p ++ repeat "" m /\ (rstrip p = [] \/ exists h t, rstrip p = h ++ [t] /\ t <> "").
Proof.
  unfold rstrip. destruct (drop_empty_spec (rev p)) as (m & E & H). exists m. split.
  - apply (f_equal (@rev _)) in E. rewrite rev_involutive, rev_app_distr, repeat_rev in E. exact E.
  - destruct H as [->|(t & r' & -> & N)]; [left; reflexivity|]. right. exists (rev r'), t. auto.
Qed.
Lemma rstrip_last h t : t <> "" -> rstrip (h ++ [t]) = h ++ [t].
Proof. intros N. unfold rstrip. rewrite rev_app_distr. cbn [rev app drop_empty]. destruct (String.eqb_spec t ""); [contradiction|]. cbn [rev]. rewrite rev_involutive. reflexivity. Qed.
Lemma drop_empty_blank m r : drop_empty (repeat "" m ++ r) = drop_empty r.
Proof. induction m as [|m IH]; [reflexivity|exact IH]. Qed.
Lemma rstrip_blank p m : rstrip (p ++ repeat "" m) = rstrip p.
Proof. unfold rstrip. rewrite rev_app_distr, repeat_rev, drop_empty_blank. reflexivity. Qed.
Lemma last_snoc {X} (l : list X) x d : last (l ++ [x]) d = x.
Proof. apply last_last. Qed.
Lemma split_snoc h t : split (h ++ [t]) = ((match h with [] => [""] | _ => if forallb (fun c => String.eqb c "") h then h ++ [""] else rstrip h end), t).
Proof. unfold split. rewrite removelast_last, last_last. reflexivity. Qed.
Lemma repeat_snoc {X} (x : X) m : repeat x (S m) = repeat x m ++ [x].
Proof. induction m as [|m IH]; [reflexivity|]. cbn [repeat] in *. cbn [app]. rewrite <- IH. reflexivity. Qed.
Lemma not_blank h t : t <> "" -> forall r, forallb (fun c => String.eqb c "") (h ++ t :: r) = false.
Proof. intros N r. induction h as [|c h IH]; cbn; [destruct (String.eqb_spec t ""); [contradiction|reflexivity]|]. rewrite IH. apply andb_false_r. Qed.
Lemma blank_or h : forallb (fun c => String.eqb c "") h = true \/ exists h' t, rstrip h = h' ++ [t] /\ t <> "" /\ exists m, h = (h' ++ [t]) ++ repeat "" m.
Proof.
  destruct (rstrip_spec h) as (m & E & [E2|(h' & t & E2 & N)]).
  - left. rewrite E, E2. clear. induction m as [|m IH]; [reflexivity|exact IH].
  - right. exists h', t. split; [exact E2|]. split; [exact N|]. exists m. rewrite <- E2. exact E.
Qed.

(** the two uses of os.path.split in os.makedirs *)
Definition split2 (p : path) : path * string := let ht := split p in if String.eqb (snd ht) "" then split (fst ht) else ht.
Lemma split2_spec p : names p <> [] -> exists h t m head,
  rstrip p = h ++ [t] /\ t <> "" /\ p = (h ++ [t]) ++ repeat "" m /\ names p = names h ++ names [t] /\ split2 p = (head, t) /\
  ((is_empty head = true /\ is_abs p = false /\ h = []) \/
   (is_empty head = false /\ is_abs head = is_abs p /\ names head = names h /\ ((is_abs p = true /\ names h = []) \/ (last head "" <> "" /\ List.length head < List.length p)))).
Proof.
  intros Hn. destruct (rstrip_spec p) as (m & E & [E2|(h & t & E2 & N)]).
  { exfalso. apply Hn. rewrite E, E2. apply names_blank. }
  rewrite E2 in E. exists h, t, m.
  assert (S2 : split2 p = split (h ++ [t])).
  { unfold split2. rewrite E. clear E E2 Hn p. destruct m as [|m].
    - cbn [repeat]. rewrite app_nil_r. rewrite split_snoc. cbn [snd]. destruct (String.eqb_spec t ""); [contradiction|reflexivity].
    - rewrite repeat_snoc, app_assoc, split_snoc. cbn [snd fst String.eqb]. 
      assert (X : (match (h ++ [t]) ++ repeat "" m with [] => [""] | _ => if forallb (fun c => String.eqb c "") ((h ++ [t]) ++ repeat "" m) then ((h ++ [t]) ++ repeat "" m) ++ [""] else rstrip ((h ++ [t]) ++ repeat "" m) end) = h ++ [t]).
      { rewrite rstrip_blank, rstrip_last by exact N. replace ((h ++ [t]) ++ repeat "" m) with (h ++ t :: repeat "" m) by (rewrite <- app_assoc; reflexivity). rewrite not_blank by exact N. destruct h; reflexivity. }
      rewrite X. reflexivity. }
  rewrite S2, split_snoc. eexists. split; [exact E2|]. split; [exact N|]. split; [exact E|]. split; [rewrite E, !names_app, names_blank, app_nil_r; reflexivity|]. split; [reflexivity|].
  destruct h as [|x h].
  - left. split; [reflexivity|]. split; [|reflexivity]. rewrite E. cbn. destruct m; [reflexivity|]. cbn. destruct (String.eqb_spec t ""); [contradiction|reflexivity].
  - right. assert (Ap : is_abs p = String.eqb x "") by (rewrite E; cbn; destruct h; reflexivity). rewrite Ap. destruct (blank_or (x :: h)) as [B|(h' & t' & B & N' & m' & B2)].
    + rewrite B. pose proof B as B'. cbn [forallb] in B'. apply andb_true_iff in B'. destruct B' as [Bx Bh]. split; [destruct h; reflexivity|]. split; [destruct h; reflexivity|]. split; [rewrite names_app; apply app_nil_r|]. left. split; [exact Bx|]. apply names_blanks. exact B.
    + assert (F : forallb (fun c => String.eqb c "") (x :: h) = false) by (rewrite B2, <- app_assoc; apply not_blank; exact N'). rewrite F, B. split.
      { destruct h' as [|y h']; cbn; [destruct (String.eqb_spec t' ""); [contradiction|reflexivity]|destruct h'; reflexivity]. }
      split. { destruct h' as [|y h']; cbn in B2; injection B2 as -> _; [cbn; destruct (String.eqb_spec t' ""); [contradiction|reflexivity]|destruct h'; reflexivity]. }
      split. { rewrite B2, !names_app, names_blank, app_nil_r. reflexivity. }
      right. split; [rewrite last_last; exact N'|]. rewrite E, B2, !app_length. simpl. lia.
Qed.
Lemma base_dir cwd f p : file_system f -> f cwd = Some KDir -> names p = [] -> f (loc cwd p) = Some KDir.
Proof. intros [H _] Hw E. unfold loc. rewrite E, app_nil_r. destruct (is_abs p); assumption. Qed.
Lemma names_one t : t <> "" -> names [t] = if String.eqb t "." then [] else [t].
Proof. intros N. unfold names. cbn [filter]. destruct (String.eqb_spec t ""); [contradiction|]. cbn. destruct (String.eqb t "."); reflexivity. Qed.

(** mkdir where the parent is there *)
Lemma mkdir_spec cwd f p h t : file_system f -> rstrip p = h ++ [t] -> t <> "" -> let d := (if is_abs p then [] else cwd) ++ names h in f d <> None ->
  (f d = Some KFile /\ os_mkdir cwd f p = (f, Some ENotDir)) \/
  (f d = Some KDir /\ t = "." /\ os_mkdir cwd f p = (f, Some EExist)) \/
  (f d = Some KDir /\ t <> "." /\ f (d ++ [t]) <> None /\ os_mkdir cwd f p = (f, Some EExist)) \/
  (f d = Some KDir /\ t <> "." /\ f (d ++ [t]) = None /\ os_mkdir cwd f p = (add_dir f (d ++ [t]), None)).
Proof.
  intros Hf Er Nt d Hd. assert (He : is_empty p = false). { destruct p as [|x [|y p]]; [destruct h; discriminate| |reflexivity]. cbn. destruct (String.eqb_spec x "") as [->|]; [|reflexivity]. destruct h; discriminate. }
  unfold os_mkdir. rewrite He, Er, rev_app_distr, removelast_last. cbn [rev app]. fold d. destruct (f d) as [[|]|] eqn:Ed; [| |congruence].
  - rewrite (walk_dir f Hf d [] Ed). right. destruct (String.eqb_spec t "."); [left; auto|]. right. destruct (f (d ++ [t])) eqn:Ec; [left|right]; split; try reflexivity; split; try assumption; split; try reflexivity; congruence.
  - rewrite (walk_file f Hf d []); [left; auto| |exact Ed]. intros X. rewrite X in Ed. destruct Hf as [H _]. congruence.
Qed.
Lemma add_dir_grown (A : list string -> Prop) (f : fs) q : f q = None -> A q -> grown A f (add_dir f q).
Proof. intros E HA r. unfold add_dir. destruct (list_eq_dec string_dec r q) as [->|]; [right; auto|left; reflexivity]. Qed.
Lemma add_dir_fs f d c : file_system f -> f d = Some KDir -> file_system (add_dir f (d ++ [c])).
Proof.
  intros [H1 H2] Hd. split.
  - unfold add_dir. destruct (list_eq_dec string_dec [] (d ++ [c])) as [E|]; [destruct d; discriminate|exact H1].
  - intros q x. unfold add_dir. destruct (list_eq_dec string_dec (q ++ [x]) (d ++ [c])) as [E|N].
    + intros _. apply app_inj_tail in E. destruct E as [-> _]. destruct (list_eq_dec string_dec d (d ++ [c])); [reflexivity|exact Hd].
    + intros H. destruct (list_eq_dec string_dec q (d ++ [c])); [reflexivity|]. apply (H2 q x H).
Qed.

(** what a program does while others only add directories from A: it only adds
    directories from G, and post holds when it ends *)
Fixpoint safe (cwd : list string) (A G : list string -> Prop) (post : fs -> prog -> Prop) (f : fs) (t : prog) : Prop :=
  match t with
  | Ret _ | Raise _ => forall g, file_system g -> grown A f g -> post g t
  | Exists p k => forall g, file_system g -> grown A f g -> safe cwd A G post g (k (os_exists cwd g p))
  | Mkdir p k => forall g, file_system g -> grown A f g -> let (h, r) := os_mkdir cwd g p in file_system h /\ grown G g h /\ safe cwd A G post h (k r)
  end.
Lemma safe_rely cwd A G post t f g : grown A f g -> safe cwd A G post f t -> safe cwd A G post g t.
Proof.
  intros Hg. assert (T : forall h, grown A g h -> grown A f h) by (intros h Hh; eapply grown_trans; [| |exact Hg|exact Hh]; auto). destruct t; cbn [safe]; intros H h Hf Hh; apply H; auto.
Qed.

Section Creator.
Context (cwd : list string) (A : list string -> Prop).
Definition wd (f : fs) : Prop := f cwd = Some KDir.

(** the result of makedirs for the path p *)
Definition made (p : path) (r : option oserr) (f : fs) : Prop :=
  let l := loc cwd p in
  match r with
  | None => f l = Some KDir
  | Some EExist => (f l = Some KDir /\ A l) \/ (f l = Some KFile /\ last p "" = "")
  | Some ENotDir => exists q, above q l /\ f q = Some KFile /\ (q <> l \/ wants_dir p = true)
  | Some ENoEnt => False
  end.
(** os.path.exists was false *)
Definition missing (p : path) (f : fs) : Prop := f (loc cwd p) = None \/ (f (loc cwd p) = Some KFile /\ wants_dir p = true).
Lemma not_exists p f : is_empty p = false -> os_exists cwd f p = false -> missing p f.
Proof. unfold os_exists, missing. intros ->. destruct (f (loc cwd p)) as [[|]|]; [discriminate| |auto]. intros H. right. split; [reflexivity|]. destruct (wants_dir p); [reflexivity|discriminate]. Qed.
Lemma missing_grown p f g : missing p g -> grown A f g -> missing p f.
Proof. intros [E|[E W]] G; destruct (G (loc cwd p)) as [X|(X & Y & _)]; [left; congruence|congruence|right; split; [congruence|exact W]|congruence]. Qed.

Lemma makedirs_safe P post : forall fuel p k f, let l := loc cwd p in
  List.length p <= fuel -> file_system f -> wd f -> missing p f -> above l P ->
  (forall g r, file_system g -> grown (fun q => A q \/ above q l) f g -> made p r g -> safe cwd A (fun q => above q P) post g (k r)) ->
  safe cwd A (fun q => above q P) post f (makedirs fuel p k).
Proof.
  assert (NN : forall p f, file_system f -> wd f -> missing p f -> names p <> []). { intros p f Hf Hw [M|[M _]] E; rewrite (base_dir cwd f p Hf Hw E) in M; discriminate. }
  induction fuel as [|fuel IH]; intros p k f l Hlen Hf Hw Mp Hl Hk.
  { exfalso. apply (NN p f Hf Hw Mp). destruct p; [reflexivity|simpl in Hlen; lia]. }
  destruct (split2_spec p (NN p f Hf Hw Mp)) as (h & t & m & head & Er & Nt & Ep & En & Es & Hh).
  set (d := (if is_abs p then [] else cwd) ++ names h).
  assert (Ell : l = d ++ names [t]) by (unfold l, d, loc; rewrite En; apply app_assoc).
  assert (Hd : above d l) by (rewrite Ell; apply above_app).
  rewrite (names_one t Nt) in Ell.
  assert (Wp : t = "." -> wants_dir p = true). { intros ->. unfold wants_dir. rewrite Ep. destruct m as [|m]; [cbn [repeat]; rewrite app_nil_r, last_last; reflexivity|rewrite repeat_snoc, app_assoc, last_last; reflexivity]. }
  assert (Wn : t <> "." -> wants_dir p = true -> last p "" = ""). { intros N W. unfold wants_dir in W. rewrite Ep in *. destruct m as [|m]; [|rewrite repeat_snoc, app_assoc, last_last; reflexivity]. cbn [repeat] in *. rewrite app_nil_r, last_last in *. destruct (String.eqb_spec t ""), (String.eqb_spec t "."); try contradiction; discriminate W. }
  (* the last mkdir, for an ordinary last name *)
  assert (MK : forall f', t <> "." -> file_system f' -> grown (fun q => A q \/ above q d) f f' -> f' d <> None -> safe cwd A (fun q => above q P) post f' (Mkdir p k)).
  { intros f' Hdot Hf' G1 Pd. assert (El : l = d ++ [t]) by (rewrite Ell; destruct (String.eqb_spec t "."); [contradiction|reflexivity]).
    assert (Nl : ~ above l d) by (intros X; apply above_length in X; rewrite El, app_length in X; simpl in X; lia).
    cbn [safe]. intros g Hg G2. assert (G3 : grown (fun q => A q \/ above q d) f g) by (eapply grown_trans; [| |exact G1|exact G2]; auto).
    assert (Pg : g d <> None) by (destruct (f' d) eqn:X; [rewrite (grown_keep _ _ _ _ _ G2 X); discriminate|congruence]).
    assert (Up : grown (fun q => A q \/ above q l) f g) by (eapply grown_mono; [|exact G3]; intros q [Q|Q]; [auto|right; eapply above_trans; eassumption]).
    destruct (mkdir_spec cwd g p h t Hg Er Nt Pg) as [(E1 & ->)|[(E1 & E2 & ->)|[(E1 & _ & E2 & ->)|(E1 & _ & E2 & ->)]]]; fold d in E1 |- *; try fold d in E2; [|contradiction| |].
    - split; [exact Hg|]. split; [apply grown_refl|]. apply Hk; [exact Hg|exact Up|]. exists d. split; [exact Hd|]. split; [exact E1|]. left. intros X. apply Nl. fold l in X. rewrite <- X. apply above_refl.
    - split; [exact Hg|]. split; [apply grown_refl|]. apply Hk; [exact Hg|exact Up|]. cbn. fold l. rewrite <- El in E2. destruct (G3 l) as [X|(_ & X & [Y|Y])]; [|left; auto|contradiction].
      right. destruct Mp as [Mp|[Mp W]]; fold l in Mp; [congruence|]. split; [congruence|apply Wn; assumption].
    - assert (X : grown (fun q => above q P) g (add_dir g (d ++ [t]))) by (apply add_dir_grown; [exact E2|rewrite <- El; exact Hl]). split; [apply add_dir_fs; assumption|]. split; [exact X|].
      apply Hk; [apply add_dir_fs; assumption| |].
      + eapply grown_trans; [| |exact Up|apply (add_dir_grown (fun q => above q l)); [exact E2|rewrite El; apply above_refl]]; auto.
      + cbn. fold l. rewrite El. unfold add_dir. destruct (list_eq_dec string_dec (d ++ [t]) (d ++ [t])); congruence. }
  (* and for the last component "." *)
  assert (MD : forall f', t = "." -> file_system f' -> grown A f f' -> f' d <> None -> safe cwd A (fun q => above q P) post f' (Mkdir p k)).
  { intros f' Hdot Hf' G1 Pd. assert (El : l = d) by (rewrite Ell, Hdot; apply app_nil_r).
    cbn [safe]. intros g Hg G2. assert (G3 : grown A f g) by (eapply grown_trans; [| |exact G1|exact G2]; auto).
    assert (Pg : g d <> None) by (destruct (f' d) eqn:X; [rewrite (grown_keep _ _ _ _ _ G2 X); discriminate|congruence]).
    assert (Up : grown (fun q => A q \/ above q l) f g) by (eapply grown_mono; [|exact G3]; auto).
    destruct (mkdir_spec cwd g p h t Hg Er Nt Pg) as [(E1 & ->)|[(E1 & E2 & ->)|[(E1 & X & _)|(E1 & X & _)]]]; fold d in E1 |- *; [| |contradiction|contradiction].
    - split; [exact Hg|]. split; [apply grown_refl|]. apply Hk; [exact Hg|exact Up|]. exists d. split; [exact Hd|]. split; [exact E1|]. right. apply Wp. exact Hdot.
    - split; [exact Hg|]. split; [apply grown_refl|]. apply Hk; [exact Hg|exact Up|]. cbn. fold l. rewrite El. left. split; [exact E1|]. destruct (G3 d) as [X|(_ & _ & Y)]; [|exact Y]. destruct Mp as [Mp|[Mp _]]; fold l in Mp; rewrite El in Mp; congruence. }
  cbn [makedirs]. fold (split2 p). rewrite Es. cbn [fst snd]. replace (String.eqb t "") with false by (destruct (String.eqb_spec t ""); [contradiction|reflexivity]). cbn [negb]. rewrite andb_true_r.
  destruct Hh as [(Ee & Ea & Eh)|(Ee & Ea & Enh & Hh)]; rewrite Ee; cbn [negb].
  - assert (Ed : d = cwd) by (unfold d; rewrite Ea, Eh; apply app_nil_r). apply MK; [|exact Hf|apply grown_refl|rewrite Ed; unfold wd in Hw; congruence].
    intros ->. apply (NN p f Hf Hw Mp). rewrite En, Eh. reflexivity.
  - assert (Edl : loc cwd head = d) by (unfold d, loc; rewrite Ea, Enh; reflexivity).
    cbn [safe]. intros g Hg G1. assert (G1' : grown (fun q => A q \/ above q d) f g) by (eapply grown_mono; [|exact G1]; auto). destruct (os_exists cwd g head) eqn:Ex.
    + assert (Pd : g d <> None). { unfold os_exists in Ex. rewrite Ee, Edl in Ex. destruct (g d); [discriminate|discriminate]. }
      destruct (string_dec t ".") as [Dt|Dt]; [apply MD|apply MK]; assumption.
    + pose proof (not_exists head g Ee Ex) as Mh. assert (Hw' : wd g) by (apply (grown_keep _ _ _ _ _ G1 Hw)). pose proof (NN head g Hg Hw' Mh) as Nh. rewrite Enh in Nh. destruct Hh as [[_ Hh]|[Lh Hlen2]]; [contradiction|].
      apply (IH head _ g); rewrite ?Edl; [lia|exact Hg|exact Hw'|exact Mh|eapply above_trans; eassumption|]. intros h' r Hh' G2 M.
      assert (G4 : grown (fun q => A q \/ above q d) f h') by (eapply grown_trans; [| |exact G1'|exact G2]; auto).
      assert (Up : grown (fun q => A q \/ above q l) f h') by (eapply grown_mono; [|exact G4]; intros q [Q|Q]; [auto|right; eapply above_trans; eassumption]).
      assert (OK : h' d = Some KDir -> safe cwd A (fun q => above q P) post h' (if String.eqb t "." then k None else Mkdir p k)).
      { intros D. destruct (String.eqb_spec t ".") as [Dt|Dt]; [|apply MK; [exact Dt|exact Hh'|exact G4|congruence]]. apply Hk; [exact Hh'|exact Up|]. cbn. fold l. rewrite Ell, app_nil_r. exact D. }
      unfold made in M. rewrite Edl in M. destruct r as [[| |]|].
      * destruct M as [[M _]|[_ M]]; [exact (OK M)|contradiction].
      * destruct M as (q & Q1 & Q2 & Q3). apply Hk; [exact Hh'|exact Up|]. exists q. split; [eapply above_trans; eassumption|]. split; [exact Q2|]. fold l. destruct (string_dec t ".") as [Dt|Dt]; [right; apply Wp; exact Dt|]. left. intros X. apply above_length in Q1. rewrite X, Ell in Q1. destruct (String.eqb_spec t "."); [contradiction|]. rewrite app_length in Q1. simpl in Q1. lia.
      * contradiction.
      * exact (OK M).
Qed.
End Creator.

(** how a process for the path p may end *)
Definition outcome (cwd : list string) (A : list string -> Prop) (f0 : fs) (p : path) (f : fs) (t : prog) : Prop :=
  let l := loc cwd p in
  match t with
  | Ret q => q = p /\ (f l = Some KDir \/ (f l = Some KFile /\ wants_dir p = false))
  | Raise EExist => (f l = Some KDir /\ f0 l = None /\ A l) \/ (f l = Some KFile /\ last p "" = "")
  | Raise ENotDir => exists q, above q l /\ f q = Some KFile /\ (q <> l \/ wants_dir p = true)
  | _ => False
  end.

Lemma creator_safe cwd A p name f : file_system f -> wd cwd f -> is_empty (join p name) = false ->
  safe cwd A (fun q => above q (loc cwd (join p name))) (outcome cwd A f (join p name)) f (save_path_creator p name).
Proof.
  intros Hf Hw He. unfold save_path_creator. set (s := join p name) in *. cbn [safe]. intros g Hg G1. destruct (os_exists cwd g s) eqn:Ex.
  - cbn [safe]. intros h Hh G2. cbn. split; [reflexivity|]. unfold os_exists in Ex. rewrite He in Ex. destruct (g (loc cwd s)) as [[|]|] eqn:Ed; [| |discriminate]; rewrite (grown_keep _ _ _ _ _ G2 Ed); [left; reflexivity|right]. split; [reflexivity|]. destruct (wants_dir s); [discriminate|reflexivity].
  - pose proof (not_exists cwd s g He Ex) as Ms. apply (makedirs_safe cwd A (loc cwd s)); [lia|exact Hg|apply (grown_keep _ _ _ _ _ G1 Hw)|exact Ms|apply above_refl|]. intros h r Hh G2 M. unfold made in M.
    destruct r as [[| |]|]; cbn [safe]; intros x Hx G3; cbn.
    + destruct M as [[M1 M2]|[M1 M2]]; [left|right; split; [apply (grown_keep _ _ _ _ _ G3 M1)|exact M2]]. split; [apply (grown_keep _ _ _ _ _ G3 M1)|]. split; [|exact M2]. destruct (missing_grown _ _ _ _ _ Ms G1) as [X|[X _]]; [exact X|]. rewrite (grown_keep _ _ _ _ _ G2 (grown_keep _ _ _ _ _ G1 X)) in M1. discriminate.
    + destruct M as (q & Q1 & Q2 & Q3). exists q. split; [exact Q1|]. split; [apply (grown_keep _ _ _ _ _ G3 Q2)|exact Q3].
    + contradiction.
    + split; [reflexivity|]. left. apply (grown_keep _ _ _ _ _ G3 M).
Qed.

(** a program makes at most n system calls *)
Inductive takes : nat -> prog -> Prop :=
| takes_end n t : ended t -> takes n t
| takes_exists n p k : (forall b, takes n (k b)) -> takes (S n) (Exists p k)
| takes_mkdir n p k : (forall r, takes n (k r)) -> takes (S n) (Mkdir p k).
Lemma takes_more n t : takes n t -> forall m, n <= m -> takes m t.
Proof. induction 1 as [n t He|n p k Hk IH|n p k Hk IH]; intros m Hm; [apply takes_end; exact He| |]; (destruct m as [|m]; [lia|]); [apply takes_exists|apply takes_mkdir]; intros; apply IH; lia. Qed.
Lemma makedirs_takes : forall fuel p k n, (forall r, takes n (k r)) -> takes (n + 2 * fuel + 2) (makedirs fuel p k).
Proof.
  assert (M : forall p k n, (forall r, takes n (k r)) -> takes (S n) (Mkdir p k)) by (intros; apply takes_mkdir; assumption).
  induction fuel as [|fuel IH]; intros p k n Hk; cbn [makedirs]; (match goal with |- takes _ (if ?b then _ else _) => destruct b end; [|apply (takes_more _ _ (M p k n Hk)); lia]).
  - replace (n + 2 * 0 + 2) with (S (S n)) by lia. apply takes_exists. intros [|]; [apply (takes_more _ _ (M p k n Hk)); lia|apply (takes_more _ _ (Hk _)); lia].
  - replace (n + 2 * S fuel + 2) with (S (S n + 2 * fuel + 2)) by lia. apply takes_exists. intros [|]; [apply (takes_more _ _ (M p k n Hk)); lia|].
    apply IH. intros [[| |]|]; try (match goal with |- takes _ (if ?b then _ else _) => destruct b end); try exact (M p k n Hk); apply (takes_more _ _ (Hk _)); lia.
Qed.
Definition calls (job : path * path) : nat := 2 * List.length (join (fst job) (snd job)) + 3.
Lemma creator_takes job : takes (calls job) (save_path_creator (fst job) (snd job)).
Proof.
  unfold save_path_creator, calls. set (s := join _ _). replace (2 * List.length s + 3) with (S (0 + 2 * List.length s + 2)) by lia. apply takes_exists. intros [|]; [apply takes_end; exact I|].
  apply makedirs_takes. intros [e|]; apply takes_end; exact I.
Qed.
Lemma set_nth_length {X} i (a : X) l : List.length (set_nth i a l) = List.length l.
Proof. revert i. induction l as [|b l IH]; intros [|i]; cbn; auto. Qed.
Lemma set_nth_here {X} i (a b : X) l : nth_error l i = Some b -> nth_error (set_nth i a l) i = Some a.
Proof. revert i. induction l as [|c l IH]; intros [|i] E; try discriminate; cbn in *; auto. Qed.
Lemma set_nth_other {X} i j (a : X) l : i <> j -> nth_error (set_nth i a l) j = nth_error l j.
Proof. revert i j. induction l as [|c l IH]; intros [|i] [|j] H; cbn; auto; try congruence. Qed.
Lemma takes_step ns ts i t t' n : Forall2 takes ns ts -> nth_error ts i = Some t -> (forall n, takes n t -> exists n', n = S n' /\ takes n' t') -> n = list_sum ns ->
  exists ns', Forall2 takes ns' (set_nth i t' ts) /\ S (list_sum ns') = n.
Proof.
  intros F. revert i n. induction F as [|m u ns ts Hm F IH]; intros i n E Ht En; [destruct i; discriminate|]. destruct i as [|i]; cbn in E.
  - injection E as ->. destruct (Ht m Hm) as (m' & -> & H'). exists (m' :: ns). split; [constructor; assumption|]. subst n. reflexivity.
  - destruct (IH i (list_sum ns) E Ht eq_refl) as (ns' & F' & S'). exists (m :: ns'). split; [constructor; assumption|]. subst n. cbn [list_sum fold_right]. fold (list_sum ns') (list_sum ns). lia.
Qed.

Definition place (cwd : list string) (job : path * path) : list string := loc cwd (join (fst job) (snd job)).
(** the entries that the other processes may make *)
Definition others (cwd : list string) (jobs : list (path * path)) (i : nat) (q : list string) : Prop := exists j job, j <> i /\ nth_error jobs j = Some job /\ above q (place cwd job).
Definition start (jobs : list (path * path)) : list prog := map (fun job => save_path_creator (fst job) (snd job)) jobs.

Lemma run_invariant cwd jobs f m s t : file_system f -> wd cwd f -> Forall (fun job => is_empty (join (fst job) (snd job)) = false) jobs -> steps cwd m s t ->
  let inv (s : fs * list prog) := file_system (fst s) /\ grown (fun q => exists job, In job jobs /\ above q (place cwd job)) f (fst s) /\
    forall i job, nth_error jobs i = Some job -> exists t, nth_error (snd s) i = Some t /\ safe cwd (others cwd jobs i) (fun q => above q (place cwd job)) (outcome cwd (others cwd jobs i) f (join (fst job) (snd job))) (fst s) t in
  inv s -> List.length (snd s) = List.length jobs -> inv t /\ List.length (snd t) = List.length jobs.
Proof.
  intros Hf Hw Hj Hst. induction Hst as [s|m s t u Hs _ IH]; intros inv Hi Hl; [auto|]. apply IH; clear IH.
  - destruct Hi as (I1 & I2 & I3). inversion Hs as [f1 ts i p k E|f1 ts i p k f' r E Em]; subst; cbn [fst snd] in *.
    + split; [exact I1|]. split; [exact I2|]. intros j job Ej. destruct (I3 j job Ej) as (x & Ex & Sx). destruct (Nat.eq_dec i j) as [<-|N].
      * rewrite E in Ex. injection Ex as <-. eexists. split; [eapply set_nth_here; exact E|]. cbn [safe] in Sx. apply Sx; [exact I1|apply grown_refl].
      * exists x. split; [rewrite set_nth_other; auto|exact Sx].
    + assert (Hij : exists job, nth_error jobs i = Some job). { assert (i < List.length jobs) by (rewrite <- Hl; apply nth_error_Some; congruence). destruct (nth_error jobs i) eqn:X; [eauto|apply nth_error_None in X; lia]. }
      destruct Hij as (job & Ej). destruct (I3 i job Ej) as (x & Ex & Sx). rewrite E in Ex. injection Ex as <-. cbn [safe] in Sx. specialize (Sx f1 I1 (grown_refl _ _)). rewrite Em in Sx. destruct Sx as (S1 & S2 & S3).
      split; [exact S1|]. split.
      * eapply grown_trans; [| |exact I2|exact S2]; [auto|]. intros q Q. exists job. split; [eapply nth_error_In; exact Ej|exact Q].
      * intros j job' Ej'. destruct (Nat.eq_dec i j) as [<-|N].
        -- rewrite Ej in Ej'. injection Ej' as <-. eexists. split; [eapply set_nth_here; exact E|exact S3].
        -- destruct (I3 j job' Ej') as (y & Ey & Sy). exists y. split; [rewrite set_nth_other; auto|]. eapply safe_rely; [|exact Sy]. eapply grown_mono; [|exact S2]. intros q Q. exists i, job. auto.
  - inversion Hs; subst; cbn [snd] in *; rewrite set_nth_length; exact Hl.
Qed.

(** *** The representation of path strings by their components *)

(** s.split('/') *)
Fixpoint comps (s : string) : list string :=
  match s with
  | EmptyString => [""]
  | String a s => if Ascii.eqb a "/"%char then "" :: comps s else match comps s with c :: cs => String a c :: cs | [] => [String a ""] end
  end.
(** os.path.join on strings *)
Fixpoint ends_slash (s : string) : bool := match s with EmptyString => false | String a EmptyString => Ascii.eqb a "/"%char | String _ s => ends_slash s end.
Definition py_join (a b : string) : string :=
  if prefix "/" b then b else if String.eqb a "" || ends_slash a then String.append a b else String.append a (String.append "/" b).

Lemma comps_ne s : exists c cs, comps s = c :: cs.
Proof. destruct s as [|a s]; [eexists; eexists; reflexivity|]. cbn. destruct (Ascii.eqb a "/"%char); [eexists; eexists; reflexivity|]. destruct (comps s); eexists; eexists; reflexivity. Qed.
Lemma append_nil_r s : String.append s "" = s.
Proof. induction s as [|a s IH]; [reflexivity|]. cbn. rewrite IH. reflexivity. Qed.
Lemma comps_app a b : comps (String.append a b) = removelast (comps a) ++ String.append (last (comps a) "") (hd "" (comps b)) :: tl (comps b).
Proof.
  induction a as [|x a IH]; [cbn; destruct (comps_ne b) as (c & cs & ->); reflexivity|]. cbn [String.append comps]. destruct (comps_ne a) as (c & cs & E). destruct (Ascii.eqb x "/"%char).
  - rewrite IH, E. reflexivity.
  - rewrite IH, E. destruct cs; reflexivity.
Qed.
Lemma comps_last s : (String.eqb s "" || ends_slash s) = String.eqb (last (comps s) "") "".
Proof.
  induction s as [|a s IH]; [reflexivity|]. cbn [comps]. destruct (comps_ne s) as (c & cs & E). destruct s as [|b s].
  - cbn. destruct (Ascii.eqb a "/"%char); reflexivity.
  - replace (String.eqb (String a (String b s)) "" || ends_slash (String a (String b s))) with (String.eqb (String b s) "" || ends_slash (String b s)) by reflexivity.
    rewrite IH, E. destruct (Ascii.eqb a "/"%char); [reflexivity|]. destruct cs as [|c2 cs]; [|reflexivity]. cbn [last].
    (* a single component: no slash in String b s *)
    cbn in E. destruct (Ascii.eqb b "/"%char); [destruct (comps_ne s) as (u & us & Eu); rewrite Eu in E; discriminate|]. destruct (comps_ne s) as (u & us & Eu). rewrite Eu in E. injection E as <- _. reflexivity.
Qed.
Lemma comps_abs s : prefix "/" s = is_abs (comps s).
Proof.
  destruct s as [|a s]; [reflexivity|]. cbn [prefix comps]. destruct (comps_ne s) as (c & cs & E). rewrite E. destruct (Ascii.ascii_dec "/"%char a) as [<-|N].
  - cbn. destruct s; reflexivity.
  - destruct (Ascii.eqb_spec a "/"%char); [congruence|]. destruct cs; reflexivity.
Qed.
(** s + c for a file name c *)
Definition plus (s : path) (c : string) : path := removelast s ++ [String.append (last s "") c].
Theorem C94_strings : (forall a b, comps (py_join a b) = join (comps a) (comps b)) /\
  (forall a c, (forall x y, c <> String.append x (String.append "/" y)) -> comps (String.append a c) = plus (comps a) c) /\
  (forall a b, comps a = comps b -> a = b).
Proof.
  assert (One : forall c, (forall x y, c <> String.append x (String.append "/" y)) -> comps c = [c]).
  { induction c as [|a c IH]; intros H; [reflexivity|]. cbn. destruct (Ascii.eqb_spec a "/"%char) as [->|N]; [exfalso; apply (H "" c); reflexivity|]. rewrite IH; [reflexivity|]. intros x y ->. apply (H (String a x) y). reflexivity. }
  split; [|split].
  - intros a b. unfold py_join, join. rewrite comps_abs. destruct (is_abs (comps b)) eqn:Ab; [reflexivity|]. rewrite comps_last. destruct (comps_ne a) as (c & cs & E). destruct (String.eqb_spec (last (comps a) "") "") as [L|L].
    + rewrite comps_app, L. destruct (comps_ne b) as (u & us & ->). reflexivity.
    + rewrite comps_app. cbn [String.append comps Ascii.eqb Bool.eqb hd tl]. rewrite append_nil_r. assert (A : comps a = removelast (comps a) ++ [last (comps a) ""]) by (apply app_removelast_last; congruence). remember (removelast (comps a)) as r. remember (last (comps a) "") as z. rewrite A, <- app_assoc. reflexivity.
  - intros a c Hc. rewrite comps_app, (One c Hc). reflexivity.
  - assert (R : forall a, exists y, concat "/" (comps a) = y /\ y = a).
    { intros a. exists a. split; [|reflexivity]. induction a as [|x a IH]; [reflexivity|]. cbn [comps]. destruct (comps_ne a) as (c & cs & E). destruct (Ascii.eqb_spec x "/"%char) as [->|N].
      - rewrite E in *. cbn [concat]. cbn [concat] in IH. rewrite IH. reflexivity.
      - rewrite E in *. cbn [concat] in *. destruct cs; rewrite <- IH; reflexivity. }
    intros a b H. destruct (R a) as (x & X & ->), (R b) as (y & Y & ->). rewrite H in X. congruence.
Qed.
Print Assumptions C94_strings.

(** ** C94 *)

(** Any number of processes, each calling save_path_creator, with their system calls in
    any order: at every moment the file system is the first one with directories on the way
    to the paths added, nothing else. A process that returned did so with its path, and
    the entry is a directory, unless it was a file and the path does not end in a slash
    or "."; FileExistsError is only raised if the directory exists and another process wanted
    it or something below it, or if it was a file and the path ends in a slash;
    NotADirectoryError only if a file was used as a directory; nothing else is raised. All
    processes end after finitely many steps. *)
Theorem C94_processes_partial : forall cwd jobs f m g ts,
  file_system f -> f cwd = Some KDir -> Forall (fun job => is_empty (join (fst job) (snd job)) = false) jobs -> steps cwd m (f, start jobs) (g, ts) ->
  file_system g /\ grown (fun q => exists job, In job jobs /\ above q (place cwd job)) f g /\ List.length ts = List.length jobs /\
  m <= list_sum (map calls jobs) /\ ((forall s, ~ step cwd (g, ts) s) -> Forall ended ts) /\
  forall i p name t, nth_error jobs i = Some (p, name) -> nth_error ts i = Some t -> ended t ->
    let s := join p name in let l := loc cwd s in
    (t = Ret s /\ (g l = Some KDir \/ (f l = Some KFile /\ wants_dir s = false))) \/
    (t = Raise EExist /\ g l = Some KDir /\ f l = None /\ exists j p' name', j <> i /\ nth_error jobs j = Some (p', name') /\ above l (loc cwd (join p' name'))) \/
    (t = Raise EExist /\ f l = Some KFile /\ last s "" = "") \/
    (t = Raise ENotDir /\ exists q, above q l /\ f q = Some KFile /\ (q <> l \/ wants_dir s = true)).
Proof.
  intros cwd jobs f m g ts Hf Hw Hj Hst.
  destruct (run_invariant cwd jobs f m (f, start jobs) (g, ts) Hf Hw Hj Hst) as [(I1 & I2 & I3) Hl].
  { cbn [fst snd]. split; [exact Hf|]. split; [apply grown_refl|]. intros i job Ei. exists (save_path_creator (fst job) (snd job)). split; [unfold start; rewrite nth_error_map, Ei; reflexivity|].
    apply creator_safe; [exact Hf|exact Hw|]. rewrite Forall_forall in Hj. apply Hj. eapply nth_error_In. exact Ei. }
  { cbn [snd]. unfold start. apply map_length. }
  cbn [fst snd] in *. split; [exact I1|]. split; [exact I2|]. split; [exact Hl|]. split; [|split].
  - assert (K : forall m s t, steps cwd m s t -> forall ns, Forall2 takes ns (snd s) -> m <= list_sum ns).
    { induction 1 as [s|k s t u Hs _ IH]; intros ns F; [lia|]. assert (X : exists ns', Forall2 takes ns' (snd t) /\ S (list_sum ns') = list_sum ns).
      { inversion Hs as [f1 us i p q E|f1 us i p q f' r E Em]; subst; cbn [snd] in *; eapply takes_step; eauto; intros n Hn; inversion Hn as [? ? He|n' ? ? Hk|n' ? ? Hk]; subst; try contradiction; exists n'; auto. }
      destruct X as (ns' & F' & <-). specialize (IH ns' F'). lia. }
    apply (K _ _ _ Hst). cbn [snd]. unfold start. clear. induction jobs as [|job jobs IH]; cbn [map]; constructor; [apply creator_takes|exact IH].
  - intros Hn. apply Forall_forall. intros t Ht. apply In_nth_error in Ht. destruct Ht as (i & Ei). destruct t as [| |p k|p k]; try exact I; exfalso.
    + exact (Hn _ (step_exists cwd g ts i p k Ei)).
    + destruct (os_mkdir cwd g p) as [g' r] eqn:Em. exact (Hn _ (step_mkdir cwd g ts i p k g' r Ei Em)).
  - intros i p name t Ei Et He. destruct (I3 i _ Ei) as (t' & Et' & Hs). rewrite Et in Et'. injection Et' as <-. cbn [fst snd] in Hs. set (l := loc cwd (join p name)).
    assert (Old : forall q, g q = Some KFile -> f q = Some KFile) by (intros q X; destruct (I2 q) as [Y|(_ & Y & _)]; congruence).
    assert (O : outcome cwd (others cwd jobs i) f (join p name) g t) by (destruct t; try contradiction; cbn [safe] in Hs; apply Hs; [exact I1|apply grown_refl|exact I1|apply grown_refl]).
    destruct t as [q|[| |]| |]; cbn [outcome] in O; try contradiction.
    + destruct O as [-> O]. left. split; [reflexivity|]. destruct O as [O|[O W]]; [auto|]. right. split; [exact (Old _ O)|exact W].
    + destruct O as [(O1 & O2 & j & [p' name'] & N & Ej & Ha)|[O1 O2]]; right; [left|right; left; split; [reflexivity|]; split; [exact (Old _ O1)|exact O2]]. split; [reflexivity|]. split; [exact O1|]. split; [exact O2|]. exists j, p', name'. auto.
    + destruct O as (q & Q1 & Q2 & Q3). right. right. right. split; [reflexivity|]. exists q. split; [exact Q1|]. split; [exact (Old _ Q2)|exact Q3].
Qed.
Print Assumptions C94_processes_partial.

(** If no path is another's or above it and no file is in the way, every process that ended
    returned its path, and all the paths are directories. *)
Theorem C94_separate_partial : forall cwd jobs f m g ts,
  file_system f -> f cwd = Some KDir -> Forall (fun job => is_empty (join (fst job) (snd job)) = false) jobs -> steps cwd m (f, start jobs) (g, ts) ->
  (forall i j a b, i <> j -> nth_error jobs i = Some a -> nth_error jobs j = Some b -> ~ above (loc cwd (join (fst a) (snd a))) (loc cwd (join (fst b) (snd b)))) ->
  (forall p name q, In (p, name) jobs -> above q (loc cwd (join p name)) -> f q <> Some KFile) -> Forall ended ts ->
  Forall2 (fun job t => t = Ret (join (fst job) (snd job)) /\ g (loc cwd (join (fst job) (snd job))) = Some KDir) jobs ts.
Proof.
  intros cwd jobs f m g ts Hf Hw Hj Hst Hsep Hfile He. destruct (C94_processes_partial cwd jobs f m g ts Hf Hw Hj Hst) as (_ & Hg & Hl & _ & _ & Ho).
  assert (K : forall i job t, nth_error jobs i = Some job -> nth_error ts i = Some t -> t = Ret (join (fst job) (snd job)) /\ g (loc cwd (join (fst job) (snd job))) = Some KDir).
  { intros i [p name] t Ei Et. cbn [fst snd]. assert (Ht : ended t) by (rewrite Forall_forall in He; apply He; eapply nth_error_In; exact Et).
    assert (NF : forall q, above q (loc cwd (join p name)) -> f q <> Some KFile) by (intros q Q; apply (Hfile p name q); [eapply nth_error_In; exact Ei|exact Q]).
    destruct (Ho i p name t Ei Et Ht) as [(-> & [H|[H _]])|[(-> & _ & _ & j & p' & name' & N & Ej & Ha)|[(-> & H & _)|(-> & q & Q1 & Q3 & _)]]].
    - auto.
    - exfalso. exact (NF _ (above_refl _) H).
    - exfalso. exact (Hsep i j _ _ (not_eq_sym N) Ei Ej Ha).
    - exfalso. exact (NF _ (above_refl _) H).
    - exfalso. exact (NF q Q1 Q3). }
  clear - K Hl. revert ts Hl K. induction jobs as [|a jobs IH]; intros [|t ts] Hl K; try discriminate; constructor; [apply (K 0); reflexivity|]. apply IH; [injection Hl; auto|]. intros i. apply (K (S i)).
Qed.
Print Assumptions C94_separate_partial.

(** A single call. *)
Lemma run_out cwd n : forall f t, takes n t -> exists m g u, steps cwd m (f, [t]) (g, [u]) /\ ended u.
Proof.
  induction n as [|n IH]; intros f t H; inversion H as [? ? He|n' p k Hk|n' p k Hk]; subst.
  - exists 0, f, t. split; [constructor|exact He].
  - exists 0, f, t. split; [constructor|exact He].
  - destruct (IH f (k (os_exists cwd f p)) (Hk _)) as (m & g & u & S1 & S2). exists (S m), g, u. split; [|exact S2]. eapply steps_more; [|exact S1]. apply (step_exists cwd f [Exists p k] 0 p k). reflexivity.
  - destruct (os_mkdir cwd f p) as [f' r] eqn:E. destruct (IH f' (k r) (Hk r)) as (m & g & u & S1 & S2). exists (S m), g, u. split; [|exact S2]. eapply steps_more; [|exact S1]. apply (step_mkdir cwd f [Mkdir p k] 0 p k f' r); [reflexivity|exact E].
Qed.
Theorem C94_single_call_partial : forall cwd f p name, file_system f -> f cwd = Some KDir -> is_empty (join p name) = false ->
  (exists m g t, steps cwd m (f, start [(p, name)]) (g, [t]) /\ ended t) /\
  forall m g t, steps cwd m (f, start [(p, name)]) (g, [t]) -> ended t ->
    let s := join p name in let l := loc cwd s in
    (f l = Some KDir -> t = Ret s /\ forall q, g q = f q) /\
    (f l = None -> (forall q, above q l -> f q <> Some KFile) -> t = Ret s /\ (forall q, above q l -> g q = Some KDir) /\ (forall q, ~ above q l -> g q = f q)) /\
    (f l = None -> (exists q, above q l /\ f q = Some KFile) -> t = Raise ENotDir /\ forall q, g q = f q) /\
    (f l = Some KFile -> wants_dir s = false -> t = Ret s /\ forall q, g q = f q) /\
    (f l = Some KFile -> wants_dir s = true -> (exists e, t = Raise e) /\ forall q, g q = f q).
Proof.
  intros cwd f p name Hf Hw He. split; [apply (run_out cwd (calls (p, name))), (creator_takes (p, name))|]. intros m g t Hst Ht s l.
  destruct (C94_processes_partial cwd [(p, name)] f m g [t] Hf Hw (Forall_cons (p, name) He (Forall_nil _)) Hst) as (Hg & G & _ & _ & _ & Ho). specialize (Ho 0 p name t eq_refl eq_refl Ht). cbv zeta in Ho. fold s in Ho. fold l in Ho.
  assert (NE : forall P : Prop, (exists j p' name', j <> 0 /\ nth_error [(p, name)] j = Some (p', name') /\ above l (loc cwd (join p' name'))) -> P) by (intros P ([|[|j]] & p' & name' & N & E & _); [congruence|discriminate|discriminate]).
  assert (GA : forall q, g q = f q \/ (f q = None /\ g q = Some KDir /\ above q l)). { intros q. destruct (G q) as [X|(X1 & X2 & job & Hin & X3)]; [auto|]. right. destruct Hin as [<-|[]]. auto. }
  assert (Up : forall q, above q l -> f l <> None -> f q <> None). { intros q Q Hl. destruct (list_eq_dec string_dec q l) as [->|N]; [exact Hl|]. rewrite (fs_above f q l Hf Q N Hl). discriminate. }
  assert (Same : f l <> None -> forall q, g q = f q). { intros Hl q. destruct (GA q) as [X|(X & _ & Q)]; [exact X|]. exfalso. exact (Up q Q Hl X). }
  split; [|split; [|split; [|split]]].
  - intros Hl. assert (Hl' : f l <> None) by congruence. split; [|exact (Same Hl')]. destruct Ho as [(-> & _)|[(_ & _ & Y & _)|[(_ & Y & _)|(_ & q & Q1 & Q2 & _)]]]; [reflexivity|congruence|congruence|]. destruct (list_eq_dec string_dec q l) as [->|N]; [congruence|]. pose proof (fs_above f q l Hf Q1 N Hl'). congruence.
  - intros Hl NF. assert (Et : t = Ret s /\ g l <> None). { destruct Ho as [(X & [Y|[Y _]])|[(_ & _ & _ & X)|[(_ & Y & _)|(_ & q & Q1 & Q3 & _)]]]; [split; [exact X|congruence]|congruence|apply NE; exact X|congruence|exfalso; exact (NF q Q1 Q3)]. }
    destruct Et as [-> Hgl]. split; [reflexivity|]. split.
    + intros q Q. destruct (list_eq_dec string_dec q l) as [->|N]; [|exact (fs_above g q l Hg Q N Hgl)]. destruct (GA l) as [X|(_ & X & _)]; [congruence|exact X].
    + intros q Q. destruct (GA q) as [X|(_ & _ & X)]; [exact X|contradiction].
  - intros Hl (q0 & Q0 & F0). assert (F1 : g q0 = Some KFile) by (destruct (GA q0) as [X|(X & _)]; congruence).
    assert (N0 : q0 <> l) by congruence. assert (Hgl : g l = None). { destruct (g l) eqn:X; [|reflexivity]. pose proof (fs_above g q0 l Hg Q0 N0). rewrite F1 in H. exfalso. assert (Some KFile = Some KDir) by (apply H; congruence). discriminate. }
    split.
    + destruct Ho as [(_ & [X|[X _]])|[(_ & X & _)|[(_ & X & _)|(X & _)]]]; [congruence|congruence|congruence|congruence|exact X].
    + intros q. destruct (GA q) as [X|(X & Y & Q)]; [exact X|]. exfalso. destruct Q0 as [r0 E0], Q as [r E]. rewrite E0 in E.
      (* q is above or below q0 *)
      assert (C : above q q0 \/ above q0 q).
      { clear - E. revert q E. induction q0 as [|c q0 IH]; intros q E; [right; exists q; reflexivity|]. destruct q as [|d q]; [left; exists (c :: q0); reflexivity|]. cbn in E. injection E as -> E. destruct (IH q E) as [[s ->]|[s ->]]; [left; exists s; reflexivity|right; exists s; reflexivity]. }
      destruct C as [C|C].
      * destruct (list_eq_dec string_dec q q0) as [->|N]; [congruence|]. pose proof (fs_above f q q0 Hf C N). rewrite X in H. assert (None = Some KDir) by (apply H; congruence). discriminate.
      * destruct (list_eq_dec string_dec q0 q) as [->|N]; [congruence|]. pose proof (fs_above g q0 q Hg C N). rewrite F1 in H. assert (Some KFile = Some KDir) by (apply H; congruence). discriminate.
  - intros Hl W. assert (Hl' : f l <> None) by congruence. split; [|exact (Same Hl')]. destruct Ho as [(-> & _)|[(_ & _ & Y & _)|[(_ & _ & Y)|(_ & q & Q1 & Q2 & Q3)]]]; [reflexivity|congruence| |].
    + exfalso. unfold wants_dir in W. rewrite Y in W. discriminate.
    + exfalso. destruct Q3 as [N|N]; [|congruence]. pose proof (fs_above f q l Hf Q1 N Hl'). congruence.
  - intros Hl W. assert (Hl' : f l <> None) by congruence. split; [|exact (Same Hl')]. destruct Ho as [(_ & [Y|[_ Y]])|[(X & _)|[(X & _)|(X & _)]]]; [|congruence|eauto|eauto|eauto]. rewrite (Same Hl') in Y. congruence.
Qed.
Print Assumptions C94_single_call_partial.

(** If both arguments are empty, the call raises FileNotFoundError and leaves the file
    system as it was. *)
Theorem C94_empty_call : forall cwd f p name, is_empty (join p name) = true ->
  (exists m g t, steps cwd m (f, start [(p, name)]) (g, [t]) /\ ended t) /\
  forall m g t, steps cwd m (f, start [(p, name)]) (g, [t]) -> ended t -> t = Raise ENoEnt /\ g = f.
Proof.
  intros cwd f p name He. unfold start. cbn [map fst snd]. unfold save_path_creator. set (s := join p name) in *.
  assert (Hs : s = [] \/ s = [""]).
  { destruct s as [|c [|c' s']]; [left; reflexivity| |discriminate]. cbn [is_empty] in He. apply String.eqb_eq in He. subst. right. reflexivity. }
  assert (Em : forall k, makedirs (List.length s) s k = Mkdir s k) by (intros k; destruct Hs as [-> | ->]; reflexivity).
  rewrite Em. set (k := fun r : option oserr => match r with None => Ret s | Some e => Raise e end). split.
  - exists 2, f, (Raise ENoEnt). split; [|exact I]. eapply steps_more; [apply (step_exists cwd f _ 0 s); reflexivity|]. unfold os_exists. rewrite He. cbn [set_nth].
    eapply steps_more; [eapply (step_mkdir cwd f _ 0 s); [reflexivity|unfold os_mkdir; rewrite He; reflexivity]|]. cbn [set_nth]. unfold k. apply steps_none.
  - intros m g t Hst Ht. inversion Hst as [?|m1 ? u1 ? S1 R1]; subst; [destruct Ht|]. inversion S1 as [f1 ts1 i1 p1 k1 N1|f1 ts1 i1 p1 k1 f1' r1 N1 M1]; subst; (destruct i1 as [|[|?]]; [|discriminate|discriminate]); [|discriminate]. cbn [nth_error] in N1. injection N1 as <- <-.
    unfold os_exists in R1. rewrite He in R1. cbn [set_nth] in R1.
    inversion R1 as [?|m2 ? u2 ? S2 R2]; subst; [destruct Ht|]. inversion S2 as [f2 ts2 i2 p2 k2 N2|f2 ts2 i2 p2 k2 f2' r2 N2 M2]; subst; (destruct i2 as [|[|?]]; [|discriminate|discriminate]); [discriminate|]. cbn [nth_error] in N2. injection N2 as <- <-.
    unfold os_mkdir in M2. rewrite He in M2. injection M2 as <- <-. cbn [set_nth] in R2. unfold k in R2.
    inversion R2 as [?|m3 ? u3 ? S3 R3]; subst; [split; reflexivity|]. inversion S3 as [f3 ts3 i3 p3 k3 N3|f3 ts3 i3 p3 k3 f3' r3 N3 M3]; subst; (destruct i3 as [|[|?]]; discriminate).
Qed.
Print Assumptions C94_empty_call.
Example C94_empty_case : is_empty (join (comps "") (comps "")) = true /\ is_empty (join (comps "") (comps ".")) = false.
Proof. split; reflexivity. Qed.

(** How the experiments use it: with the name '' the returned path ends in a slash, so a
    process that returned has left a directory, and a file name appended to the path is an
    entry of this directory. *)
Theorem C94_figures : forall cwd jobs f m g ts i p, file_system f -> f cwd = Some KDir -> Forall (fun job => is_empty (join (fst job) (snd job)) = false) jobs -> steps cwd m (f, start jobs) (g, ts) ->
  nth_error jobs i = Some (p, comps "") -> forall s, nth_error ts i = Some (Ret s) ->
  g (loc cwd p) = Some KDir /\ forall c, c <> "" -> c <> "." -> loc cwd (plus s c) = loc cwd p ++ [c].
Proof.
  intros cwd jobs f m g ts i p Hf Hw Hj Hst Ei s Et. destruct (C94_processes_partial cwd jobs f m g ts Hf Hw Hj Hst) as (_ & _ & _ & _ & _ & Ho). specialize (Ho i p [""] (Ret s) Ei Et I). cbv zeta in Ho.
  rewrite Forall_forall in Hj. specialize (Hj _ (nth_error_In _ _ Ei)). cbn [fst snd comps] in Hj.
  assert (Ls : last (join p [""]) "" = "") by (unfold join; cbn [is_abs]; apply last_last).
  assert (Es : join p [""] = (if String.eqb (last p "") "" then removelast p else p) ++ [""]) by reflexivity. set (h := if String.eqb (last p "") "" then removelast p else p) in *.
  assert (Hh : h <> []). { intros X. rewrite Es, X in Hj. discriminate. }
  assert (El : forall x, loc cwd (h ++ [x]) = (if is_abs p then [] else cwd) ++ names p ++ names [x]).
  { intros x. unfold loc. rewrite names_app. f_equal; [|f_equal].
    - assert (is_abs (h ++ [x]) = is_abs p) as Q; [|rewrite Q; reflexivity]. unfold h in *. destruct (String.eqb_spec (last p "") "") as [L|L].
      + destruct p as [|a [|b p]]; [contradiction|contradiction|]. cbn [removelast app is_abs]. destruct p; reflexivity.
      + destruct p as [|a [|b p]]; [contradiction| |reflexivity]. cbn in *. destruct (String.eqb_spec a ""); [contradiction|reflexivity].
    - unfold h. destruct (String.eqb_spec (last p "") "") as [L|L]; [|reflexivity]. destruct p as [|a p]; [reflexivity|]. rewrite (app_removelast_last "" (l := a :: p)) at 2 by discriminate. rewrite names_app, L. cbn. symmetry. apply app_nil_r. }
  destruct Ho as [(E & H)|[(E & _)|[(E & _)|(E & _)]]]; try discriminate. injection E as ->. split.
  - rewrite Es, El in H. cbn in H. rewrite app_nil_r in H. destruct H as [H|[_ W]]; [exact H|]. unfold wants_dir in W. rewrite last_last in W. discriminate.
  - intros c N1 N2. unfold plus. rewrite Ls, Es, removelast_last. cbn [String.append]. rewrite El, app_assoc. unfold loc at 1. f_equal. rewrite (names_one c N1). destruct (String.eqb_spec c "."); [contradiction|reflexivity].
Qed.
Print Assumptions C94_figures.

(** False in general: two processes for the same new directory, and one raises
    FileExistsError; and a path that is a file is returned. *)
Definition only_root : fs := fun q => match q with [] => Some KDir | _ => None end.
Definition a_file : fs := fun q => match q with [] => Some KDir | [c] => if string_dec c "results" then Some KFile else None | _ => None end.
Lemma only_root_fs : file_system only_root.
Proof. split; [reflexivity|]. intros q c H. destruct q; [reflexivity|cbn in H; congruence]. Qed.
Lemma a_file_fs : file_system a_file.
Proof. split; [reflexivity|]. intros [|d q] c H; [reflexivity|]. exfalso. apply H. cbn. destruct q; reflexivity. Qed.
Theorem C94_save_path_refuted :
  (exists g, steps [] 8 (only_root, start [(comps "./data", comps "run"); (comps "./data", comps "run")]) (g, [Ret (comps "./data/run"); Raise EExist])) /\
  (exists g, steps [] 1 (a_file, start [(comps "", comps "results")]) (g, [Ret (comps "results")]) /\ g ["results"] = Some KFile).
Proof.
  Ltac go_e i := eapply steps_more; [apply (step_exists [] _ _ i); reflexivity|]; cbn.
  Ltac go_m i := eapply steps_more; [eapply (step_mkdir [] _ _ i); reflexivity|]; cbn.
  split.
  - eexists. unfold start. cbn. go_e 0. go_e 1. go_e 0. go_e 0. go_m 0. go_m 0. go_e 1. go_m 1. apply steps_none.
  - exists a_file. split; [|reflexivity]. eapply steps_more; [apply (step_exists [] _ _ 0); reflexivity|]. apply steps_none.
Qed.
Print Assumptions C94_save_path_refuted.

(** Two processes that both find data missing and both try to make it. *)
Definition two_jobs : list (path * path) := [(comps "data", comps "a"); (comps "data", comps "b")].
Example C94_case : file_system only_root /\ only_root [] = Some KDir /\ Forall (fun job => is_empty (join (fst job) (snd job)) = false) two_jobs /\
  (forall i j a b, i <> j -> nth_error two_jobs i = Some a -> nth_error two_jobs j = Some b -> ~ above (loc [] (join (fst a) (snd a))) (loc [] (join (fst b) (snd b)))) /\
  (forall p name q, In (p, name) two_jobs -> above q (loc [] (join p name)) -> only_root q <> Some KFile) /\
  exists g, steps [] 8 (only_root, start two_jobs) (g, [Ret (comps "data/a"); Ret (comps "data/b")]).
Proof.
  split; [exact only_root_fs|]. split; [reflexivity|]. split; [repeat constructor|]. split; [|split].
  - intros [|[|i]] [|[|j]] a b N Ea Eb; try congruence; cbn in Ea, Eb; try (destruct i; discriminate); try (destruct j; discriminate); injection Ea as <-; injection Eb as <-; intros [r E]; cbn in E; injection E; discriminate.
  - intros p name [|c q] _ _; discriminate.
  - eexists. unfold start, two_jobs. cbn. go_e 0. go_e 1. go_e 0. go_e 1. go_m 0. go_m 1. go_m 0. go_m 1. apply steps_none.
Qed.
(** The call of the experiments, on an empty file system, and then a second one. *)
Example C94_figures_case : exists g h, steps ["home"] 3 (add_dir only_root ["home"], start [(comps "./figures", comps "")]) (g, [Ret (comps "./figures/")]) /\
  g ["home"; "figures"] = Some KDir /\ loc ["home"] (plus (comps "./figures/") "a.pdf") = ["home"; "figures"; "a.pdf"] /\
  steps ["home"] 1 (g, start [(comps "./figures", comps "")]) (h, [Ret (comps "./figures/")]) /\ h = g.
Proof.
  eexists. eexists. split.
  - unfold start. cbn. eapply steps_more; [apply (step_exists ["home"] _ _ 0); reflexivity|]. cbn. eapply steps_more; [apply (step_exists ["home"] _ _ 0); reflexivity|]. cbn. eapply steps_more; [eapply (step_mkdir ["home"] _ _ 0); reflexivity|]. cbn. apply steps_none.
  - split; [reflexivity|]. split; [reflexivity|]. split; [|reflexivity]. unfold start. cbn. eapply steps_more; [apply (step_exists ["home"] _ _ 0); reflexivity|]. cbn. apply steps_none.
Qed.
