(** Python-level conventions of the model: exceptions as values. *)
From Coq Require Import List Arith Lia Bool Permutation.
Import ListNotations.

(** The Python exceptions the modelled code can raise. [OutOfFuel] is not a
    Python exception: it marks a loop that used up the fuel of the model and is
    excluded by the termination theorems. *)
Inductive exn :=
| AssertionError | KeyError | IndexError | TypeError | ValueError
| AttributeError | NotImplementedError | StopIteration | UnboundLocalError | OverflowError
| OutOfFuel.

Inductive res (A : Type) :=
| Ok (a : A)
| Err (e : exn).
Arguments Ok {A} a.
Arguments Err {A} e.

Definition bind {A B} (x : res A) (f : A -> res B) : res B :=
  match x with Ok a => f a | Err e => Err e end.

Notation "'do' x <- m ; f" := (bind m (fun x => f))
  (at level 200, x pattern, m at level 100, f at level 200, right associativity).

Definition is_ok {A} (x : res A) : bool := match x with Ok _ => true | Err _ => false end.

Lemma bind_ok {A B} (x : res A) (f : A -> res B) b :
  bind x f = Ok b <-> exists a, x = Ok a /\ f a = Ok b.
Proof.
  destruct x; simpl; split.
  - intros H; exists a; auto.
  - intros [a' [E H]]; injection E; intros; subst; auto.
  - discriminate.
  - intros [a' [E H]]; discriminate.
Qed.

(** Left-to-right evaluation of a list of computations. *)
Fixpoint mapM {A B} (f : A -> res B) (l : list A) : res (list B) :=
  match l with
  | [] => Ok []
  | x :: r => do y <- f x; do ys <- mapM f r; Ok (y :: ys)
  end.

Lemma mapM_ok {A B} (f : A -> res B) (g : A -> B) l :
  (forall x, In x l -> f x = Ok (g x)) -> mapM f l = Ok (map g l).
Proof.
  induction l as [|x l IH]; simpl; intros H; auto.
  rewrite (H x) by auto; simpl. rewrite IH by (intros; apply H; auto). reflexivity.
Qed.

(** Membership as a boolean, for Python's [x in xs] on integers. *)
Definition mem (x : nat) (l : list nat) : bool := existsb (Nat.eqb x) l.

Lemma mem_In x l : mem x l = true <-> In x l.
Proof.
  unfold mem; rewrite existsb_exists; split.
  - intros [y [H E]]; apply Nat.eqb_eq in E; subst; auto.
  - intros H; exists x; split; auto; apply Nat.eqb_refl.
Qed.

Lemma mem_nIn x l : mem x l = false <-> ~ In x l.
Proof. rewrite <- mem_In; destruct (mem x l); split; congruence. Qed.

Lemma NoDup_app_intro {A} (l1 l2 : list A) : NoDup l1 -> NoDup l2 ->
  (forall x, In x l1 -> ~ In x l2) -> NoDup (l1 ++ l2).
Proof.
  induction l1 as [|x l1 IH]; simpl; intros H1 H2 H3; auto.
  inversion H1 as [|y l Hy Hn]; subst. constructor.
  - rewrite in_app_iff. intros [H|H]; [contradiction|]. apply (H3 x); auto.
  - apply IH; auto.
Qed.

Lemma filter_NoDup {A} (f : A -> bool) l : NoDup l -> NoDup (filter f l).
Proof.
  induction 1 as [|x l H Hn IH]; simpl; [constructor|].
  destruct (f x); auto. constructor; auto. rewrite filter_In; tauto.
Qed.
