(** The operators [*] and [+] between numbers, arrays and distributions, as Python finds them. *)

From Coq Require Import Reals Lra String List.
From Verif Require Import Model.Py.
Import ListNotations.
Open Scope R_scope.

(** distributions.py: the classes with operators, and any other class by name *)
Inductive cls := CExponential | CGamma | CNegativeBinomial | CPoisson | CNormal | CPlain (name : string).

(** A Python value.  Numbers are real; arrays have one dimension; the attributes of an
    instance may hold any value (a dataclass checks nothing). *)
Inductive pyval :=
| Nr (x : R)
| Arr (l : list pyval)
| Obj (c : cls) (attrs : list (string * pyval)).

Fixpoint size (v : pyval) : nat :=
  match v with
  | Nr _ => 1
  | Arr l => S ((fix go l := match l with [] => 0 | x :: l' => size x + go l' end) l)
  | Obj _ fs => S ((fix go l := match l with [] => 0 | (_, x) :: l' => size x + go l' end) fs)
  end%nat.

Definition bad_operand : exn := TypeError "unsupported operand type(s)".

(** [None]: the recursion limit of the model is reached (never: [mulf_fuel]) *)
Definition comp A := option (res A).
Definition cret {A} (a : A) : comp A := Some (Ok a).
Definition craise {A} (e : exn) : comp A := Some (Raise e).
Definition cbind {A B} (m : comp A) (f : A -> comp B) : comp B :=
  match m with Some (Ok a) => f a | Some (Raise e) => Some (Raise e) | None => None end.
Fixpoint cmap {A B} (f : A -> comp B) (l : list A) : comp (list B) :=
  match l with [] => cret [] | x :: l' => cbind (f x) (fun y => cbind (cmap f l') (fun r => cret (y :: r))) end.
Fixpoint czip {A B C} (f : A -> B -> comp C) (l : list A) (m : list B) : comp (list C) :=
  match l, m with
  | x :: l', y :: m' => cbind (f x y) (fun z => cbind (czip f l' m') (fun r => cret (z :: r)))
  | _, _ => cret []
  end.

(** [self.name] *)
Fixpoint lookup (name : string) (fs : list (string * pyval)) : comp pyval :=
  match fs with
  | [] => craise (AttributeError name)
  | (n, x) :: fs' => if string_dec n name then cret x else lookup name fs'
  end.
(** numbers and arrays have none of the attributes asked for *)
Definition getattr (v : pyval) (name : string) : comp pyval :=
  match v with Obj _ fs => lookup name fs | _ => craise (AttributeError name) end.

(** Division, [** 2] and [** 0.5]: of numbers, and element by element.  Simplified: where
    numpy returns inf or nan for an array element, this raises as for a number. *)
Definition elementwise (f : R -> res R) : pyval -> comp pyval :=
  fix go v := match v with
  | Nr x => Some (rmap Nr (f x))
  | Arr l => cbind ((fix each l := match l with
                     | [] => cret []
                     | x :: l' => cbind (go x) (fun y => cbind (each l') (fun r => cret (y :: r))) end) l)
                   (fun r => cret (Arr r))
  | Obj _ _ => craise bad_operand
  end.
Definition one_over : pyval -> comp pyval :=
  elementwise (fun x => if Req_EM_T x 0 then Raise ZeroDivisionError else Ok (1 / x)).
Definition squared : pyval -> comp pyval := elementwise (fun x => Ok (x ^ 2)).
Definition root : pyval -> comp pyval :=
  elementwise (fun x => if Rlt_dec x 0 then Raise ComplexResult else Ok (sqrt x)).

(** numpy broadcasting of one-dimensional arrays *)
Definition broadcast2 (f : pyval -> pyval -> comp pyval) (l m : list pyval) : comp pyval :=
  match l, m with
  | [x], _ => cbind (cmap (f x) m) (fun r => cret (Arr r))
  | _, [y] => cbind (cmap (fun x => f x y) l) (fun r => cret (Arr r))
  | _, _ => if Nat.eq_dec (length l) (length m) then cbind (czip f l m) (fun r => cret (Arr r))
            else craise (ValueError "operands could not be broadcast together")
  end.

(** [__mul__ = __rmul__] of the class, given the product of values;
    distributions.py:220-223, 249-252, 272-275, 319-322, 457-461.  [None]: no such method. *)
Definition mul_method (times : pyval -> pyval -> comp pyval) (c : cls) (fs : list (string * pyval)) (other : pyval)
  : option (comp pyval) :=
  match c with
  | CExponential => Some (
      cbind (lookup "lam" fs) (fun lam => cbind (one_over lam) (fun beta =>
      cret (Obj CGamma [("alpha"%string, other); ("beta"%string, beta)]))))
  | CGamma => Some (
      cbind (lookup "alpha" fs) (fun alpha => cbind (times alpha other) (fun alpha' =>
      cbind (lookup "beta" fs) (fun beta =>
      cret (Obj CGamma [("alpha"%string, alpha'); ("beta"%string, beta)])))))
  | CNegativeBinomial => Some (
      cbind (lookup "n" fs) (fun n => cbind (times n other) (fun n' =>
      cbind (lookup "p" fs) (fun p =>
      cret (Obj CNegativeBinomial [("n"%string, n'); ("p"%string, p)])))))
  | CPoisson => Some (
      cbind (lookup "lam" fs) (fun lam => cbind (times lam other) (fun lam' =>
      cret (Obj CPoisson [("lam"%string, lam')]))))
  | CNormal => Some (
      cbind (lookup "sigma" fs) (fun sigma => cbind (squared sigma) (fun s2 =>
      cbind (times s2 other) (fun v => cbind (root v) (fun sigma' =>
      cbind (lookup "mu" fs) (fun mu => cbind (times mu other) (fun mu' =>
      cret (Obj CNormal [("mu"%string, mu'); ("sigma"%string, sigma')]))))))))
  | CPlain _ => None
  end.

(** [v * w]: the left operand's [__mul__], then the right operand's [__rmul__]; an array
    multiplies element by element, whatever the other operand is (numpy treats an instance
    as a scalar of dtype object). *)
Fixpoint mulf (fuel : nat) (v w : pyval) : comp pyval :=
  match fuel with
  | O => None
  | S fuel =>
    let times := mulf fuel in
    match v, w with
    | Nr x, Nr y => cret (Nr (x * y))
    | Arr l, Arr m => broadcast2 times l m
    | Arr l, _ => cbind (cmap (fun x => times x w) l) (fun r => cret (Arr r))
    | Nr _, Arr m => cbind (cmap (times v) m) (fun r => cret (Arr r))
    | Nr _, Obj c fs => match mul_method times c fs v with Some r => r | None => craise bad_operand end
    | Obj c fs, _ =>
        match mul_method times c fs w with
        | Some r => r
        | None =>
            match w with
            | Obj c' fs' => match mul_method times c' fs' v with Some r => r | None => craise bad_operand end
            | Arr m => cbind (cmap (times v) m) (fun r => cret (Arr r))
            | Nr _ => craise bad_operand
            end
        end
    end
  end.
Definition times (v w : pyval) : comp pyval := mulf (size v + size w) v w.

(** [Poisson.__add__ = __radd__], distributions.py:324-327; no other class has [+] *)
Definition add_method (plus : pyval -> pyval -> comp pyval) (c : cls) (fs : list (string * pyval)) (other : pyval)
  : option (comp pyval) :=
  match c with
  | CPoisson => Some (
      cbind (lookup "lam" fs) (fun lam => cbind (getattr other "lam") (fun lam2 => cbind (plus lam lam2) (fun r =>
      cret (Obj CPoisson [("lam"%string, r)])))))
  | _ => None
  end.
Fixpoint addf (fuel : nat) (v w : pyval) : comp pyval :=
  match fuel with
  | O => None
  | S fuel =>
    let plus := addf fuel in
    match v, w with
    | Nr x, Nr y => cret (Nr (x + y))
    | Arr l, Arr m => broadcast2 plus l m
    | Arr l, _ => cbind (cmap (fun x => plus x w) l) (fun r => cret (Arr r))
    | Nr _, Arr m => cbind (cmap (plus v) m) (fun r => cret (Arr r))
    | Nr _, Obj c fs => match add_method plus c fs v with Some r => r | None => craise bad_operand end
    | Obj c fs, _ =>
        match add_method plus c fs w with
        | Some r => r
        | None =>
            match w with
            | Obj c' fs' => match add_method plus c' fs' v with Some r => r | None => craise bad_operand end
            | Arr m => cbind (cmap (plus v) m) (fun r => cret (Arr r))
            | Nr _ => craise bad_operand
            end
        end
    end
  end.
Definition plus (v w : pyval) : comp pyval := addf (size v + size w) v w.

(** Python's built-in [sum(items, start)]; [start] is 0 if not given *)
Fixpoint py_sum (start : pyval) (items : list pyval) : comp pyval :=
  match items with
  | [] => cret start
  | x :: items' => cbind (plus start x) (fun acc => py_sum acc items')
  end.
