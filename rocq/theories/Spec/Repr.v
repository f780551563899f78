(** Reading a call expression [Class(name=value, ...)] the way Python evaluates it. *)

From Coq Require Import Bool String Ascii Reals.
From Verif Require Import Model.Num Model.Py Model.NdArray Model.SliceModel Model.Dataclass.
From Verif Require Import Spec.Dataclass.
From Coq Require Import List.
Import ListNotations.
Open Scope string_scope.
Open Scope list_scope.

(** What comes before and after the first [c] *)
Fixpoint cut (c : ascii) (s : string) : option (string * string) :=
  match s with
  | EmptyString => None
  | String a s => if Ascii.eqb a c then Some ("", s) else option_map (fun p => (String a (fst p), snd p)) (cut c s)
  end.
(** The depth of brackets after the character [a] *)
Definition depth_after (a : ascii) (depth : nat) : nat :=
  if Ascii.eqb a "["%char then S depth else if Ascii.eqb a "]"%char then pred depth else depth.
(** The pieces between the commas that are not inside brackets *)
Fixpoint pieces (depth : nat) (s : string) : list string :=
  match s with
  | EmptyString => [""]
  | String a s =>
      if Ascii.eqb a ","%char && Nat.eqb depth 0 then "" :: pieces 0 s
      else match pieces (depth_after a depth) s with h :: t => String a h :: t | [] => [] end
  end.
(** Without one space in front *)
Definition strip (s : string) : string :=
  match s with String a s' => if Ascii.eqb a " "%char then s' else s | EmptyString => s end.
(** all or nothing *)
Fixpoint all {A} (l : list (option A)) : option (list A) :=
  match l with
  | [] => Some []
  | Some a :: l => option_map (cons a) (all l)
  | None :: _ => None
  end.

(** [number] reads a number.  The value of an expression is a new object. *)
Definition read_list (number : string -> option R) (s : string) : option (list R) :=
  match cut "]"%char s with
  | Some (body, "") => if String.eqb body "" then Some [] else all (map (fun t => number (strip t)) (pieces 0 body))
  | _ => None
  end.
Definition read_value (number : string -> option R) (fresh : nat) (s : string) : option value :=
  if String.eqb s "None" then Some VNone
  else if String.eqb s "True" then Some (VParam fresh (PFlag true))
  else if String.eqb s "False" then Some (VParam fresh (PFlag false))
  else match s with
  | String "["%char s => option_map (fun l => VParam fresh (PList l)) (read_list number s)
  | _ => option_map (fun r => VParam fresh (PArr (scalar r))) (number s)
  end.
Definition read_argument (number : string -> option R) (fresh : nat) (s : string) : option (string * value) :=
  match cut "="%char s with
  | Some (name, text) => option_map (pair name) (read_value number fresh text)
  | None => None
  end.
Fixpoint read_arguments (number : string -> option R) (fresh : nat) (l : list string) : option (list (string * value)) :=
  match l with
  | [] => Some []
  | s :: l =>
      match read_argument number fresh (strip s), read_arguments number (S fresh) l with
      | Some a, Some rest => Some (a :: rest)
      | _, _ => None
      end
  end.
(** The class and the keyword arguments of [Class(name=value, ...)] *)
Definition read_call (number : string -> option R) (fresh : nat) (s : string) : option (string * list (string * value)) :=
  match cut "("%char s with
  | Some (c, rest) =>
      match cut ")"%char rest with
      | Some (body, "") => option_map (pair c) (read_arguments number fresh (pieces 0 body))
      | _ => None
      end
  | None => None
  end.

(** A text without the punctuation of calls and lists *)
Fixpoint bare (s : string) : bool :=
  match s with
  | EmptyString => true
  | String a s => negb (existsb (Ascii.eqb a) [","%char; "("%char; ")"%char; "["%char; "]"%char; "="%char; " "%char]) && bare s
  end.
(** [show] writes the number [r] as a bare text that [number] reads as [r].  Only finitely
    many characters: no [show] has this for every real number, but that of Python has it for
    the numbers that are floats or integers (except that infinity and NaN need a name). *)
Definition prints (show : R -> string) (number : string -> option R) (r : R) : Prop :=
  number (show r) = Some r /\ bare (show r) = true /\ show r <> "" /\
  show r <> "None" /\ show r <> "True" /\ show r <> "False".
Definition printable (show : R -> string) (number : string -> option R) (x : plain) : Prop :=
  match x with
  | Number r => prints show number r
  | Several l => forall r, In r l -> prints show number r
  | _ => True
  end.
