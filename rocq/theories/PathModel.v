(** Model of save_path_creator (utils.py 117-122) on a file system, as a program whose
    only steps are the system calls stat and mkdir, so that several processes can be
    interleaved.

    A path string s is represented by s.split('/'): the components between the slashes,
    of which leading, trailing and doubled slashes make some empty; '' is [""] and '/' is
    ["", ""].

    Simplifications: the component ".." is an ordinary name; there are no symbolic links,
    nothing is denied by permissions, and no other program removes entries. *)
From Coq Require Import List Arith Bool String.
Import ListNotations.
Local Open Scope nat_scope.
Local Open Scope string_scope.
Local Open Scope list_scope.

(** an entry is a directory or a file; entries are named by their components from the root *)
Inductive kind := KDir | KFile.
Definition fs := list string -> option kind.
Definition path := list string.

Definition is_empty (p : path) : bool := match p with [] => true | [c] => String.eqb c "" | _ => false end.
(** s starts with a slash *)
Definition is_abs (p : path) : bool := match p with c :: _ :: _ => String.eqb c "" | _ => false end.
(** the components that name something: "" and "." are skipped *)
Definition names (p : path) : list string := filter (fun c => negb (String.eqb c "") && negb (String.eqb c ".")) p.
(** the entry that a path means for the working directory cwd *)
Definition loc (cwd : list string) (p : path) : list string := (if is_abs p then [] else cwd) ++ names p.
(** s ends in a slash or in the component ".": it can only mean a directory *)
Definition wants_dir (p : path) : bool := String.eqb (last p "") "" || String.eqb (last p "") ".".

(** posixpath.join: a second path from the root replaces the first; the slash between
    the two is not doubled *)
Definition join (p q : path) : path := if is_abs q then q else (if String.eqb (last p "") "" then removelast p else p) ++ q.

(** s.rstrip('/') *)
Fixpoint drop_empty (p : path) : path := match p with c :: p' => if String.eqb c "" then drop_empty p' else p | [] => [] end.
Definition rstrip (p : path) : path := rev (drop_empty (rev p)).

(** posixpath.split: the part after the last slash, and the part before it without trailing
    slashes unless it consists of slashes only *)
Definition split (p : path) : path * string :=
  let h := removelast p in
  ((match h with [] => [""] | _ => if forallb (fun c => String.eqb c "") h then h ++ [""] else rstrip h end), last p "").

(** the errors FileExistsError, NotADirectoryError, FileNotFoundError *)
Inductive oserr := EExist | ENotDir | ENoEnt.

(** os.path.exists *)
Definition os_exists (cwd : list string) (f : fs) (p : path) : bool :=
  if is_empty p then false else match f (loc cwd p) with Some KDir => true | Some KFile => negb (wants_dir p) | None => false end.

(** the kernel walks through the components of the parent *)
Fixpoint walk (f : fs) (q rest : list string) : option oserr :=
  match rest with
  | [] => None
  | c :: rest => match f (q ++ [c]) with Some KDir => walk f (q ++ [c]) rest | Some KFile => Some ENotDir | None => Some ENoEnt end
  end.
Definition add_dir (f : fs) (q : list string) : fs := fun r => if list_eq_dec string_dec r q then Some KDir else f r.

(** os.mkdir: trailing slashes are ignored; the parent is looked up first; a last
    component "." exists *)
Definition os_mkdir (cwd : list string) (f : fs) (p : path) : fs * option oserr :=
  if is_empty p then (f, Some ENoEnt)
  else match rev (rstrip p) with
  | [] => (f, Some EExist)
  | c :: _ =>
      let d := (if is_abs p then [] else cwd) ++ names (removelast (rstrip p)) in
      match walk f [] d with
      | Some e => (f, Some e)
      | None => if String.eqb c "." then (f, Some EExist)
                else match f (d ++ [c]) with Some _ => (f, Some EExist) | None => (add_dir f (d ++ [c]), None) end
      end
  end.

(** programs: return a path, raise, or make a system call and go on with its result *)
Inductive prog := Ret (p : path) | Raise (e : oserr) | Exists (p : path) (k : bool -> prog) | Mkdir (p : path) (k : option oserr -> prog).

(** os.makedirs(name) with exist_ok=False as in Python's standard library; k is what
    follows. The recursion carries fuel, the length of the name suffices: running out
    would be the error FileNotFoundError, which C94 excludes. *)
Fixpoint makedirs (fuel : nat) (name : path) (k : option oserr -> prog) : prog :=
  let ht := split name in
  let ht := if String.eqb (snd ht) "" then split (fst ht) else ht in
  let head := fst ht in let tail := snd ht in
  let mk := Mkdir name k in
  if negb (is_empty head) && negb (String.eqb tail "") then
    Exists head (fun e =>
      if e then mk
      else match fuel with
      | 0 => k (Some ENoEnt)
      | S fuel => makedirs fuel head (fun r => match r with
                    | None | Some EExist => if String.eqb tail "." then k None else mk
                    | Some e => k (Some e)
                    end)
      end)
  else mk.

(** utils.py:117-122 *)
Definition save_path_creator (p name : path) : prog :=
  let save_path := join p name in
  Exists save_path (fun e => if e then Ret save_path
    else makedirs (List.length save_path) save_path (fun r => match r with None => Ret save_path | Some e => Raise e end)).

(** several processes with the working directory cwd; one step of process i *)
Fixpoint set_nth {A} (i : nat) (a : A) (l : list A) : list A :=
  match l, i with [], _ => [] | _ :: l, 0 => a :: l | b :: l, S i => b :: set_nth i a l end.
Inductive step (cwd : list string) : fs * list prog -> fs * list prog -> Prop :=
| step_exists f ts i p k : nth_error ts i = Some (Exists p k) -> step cwd (f, ts) (f, set_nth i (k (os_exists cwd f p)) ts)
| step_mkdir f ts i p k f' r : nth_error ts i = Some (Mkdir p k) -> os_mkdir cwd f p = (f', r) -> step cwd (f, ts) (f', set_nth i (k r) ts).
(** m steps in any order *)
Inductive steps (cwd : list string) : nat -> fs * list prog -> fs * list prog -> Prop :=
| steps_none s : steps cwd 0 s s
| steps_more m s t u : step cwd s t -> steps cwd m t u -> steps cwd (S m) s u.
