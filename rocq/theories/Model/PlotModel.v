(** Plotting: plot.py, and the bounds the constructors set (distributions.py).

    What is modelled: the mutable bounds of distribution objects (including
    several names for one object), the grid of x values, the renormalisation,
    the labels and the ticks.  What is not: matplotlib and the evaluation of
    pdf, pmf and cdf (scipy), which enter as the table [yy] of values. *)

From Coq Require Import ZArith Bool String List Reals.
From Coq Require Import DecimalString.
From Verif Require Import Model.Num Model.Py Model.NdArray Model.SliceModel Model.DirichletModel.
From Coq Require Import List.
Import ListNotations.
Open Scope R_scope.

(** ** Bounds *)

(** The plotting mixin of a class, and what its constructor does to the bounds. *)
Inductive kind := Continuous | Discrete.
Inductive default_bounds :=
| NoBounds                               (* nothing is set *)
| MaxOne                                 (* distributions.py:78-79 Beta *)
| MaxOf (field : string)                 (* 118-122 Binomial n, 293-297 Hypergeometric N, 345-349, 371-375 n *)
| Between (low high : string)            (* 501-503 Uniform *)
| Circle.                                (* 885-887 VonMises *)
Record plot_class := mkClass { pc_name : string; pc_kind : kind; pc_bounds : default_bounds }.

(** The classes with a plotting mixin, except Dirichlet (see below) *)
Definition plot_classes : list plot_class := [
  mkClass "Beta" Continuous MaxOne;                  (* distributions.py:66-102 *)
  mkClass "Binomial" Discrete (MaxOf "n");           (* 106-126 *)
  mkClass "Exponential" Continuous NoBounds;         (* 206-223 *)
  mkClass "Gamma" Continuous NoBounds;               (* 227-252 *)
  mkClass "NegativeBinomial" Discrete NoBounds;      (* 256-275 *)
  mkClass "Hypergeometric" Discrete (MaxOf "N");     (* 279-301 *)
  mkClass "Poisson" Discrete NoBounds;               (* 305-327 *)
  mkClass "BetaBinomial" Discrete (MaxOf "n");       (* 331-353 *)
  mkClass "BetaNegativeBinomial" Discrete (MaxOf "n"); (* 357-383 *)
  mkClass "Geometric" Discrete NoBounds;             (* 387-402 *)
  mkClass "BetaGeometric" Discrete NoBounds;         (* 406-422 *)
  mkClass "Normal" Continuous NoBounds;              (* 426-461 *)
  mkClass "Uniform" Continuous (Between "low" "high"); (* 489-507 *)
  mkClass "Pareto" Continuous NoBounds;              (* 511-525 *)
  mkClass "InverseGamma" Continuous NoBounds;        (* 529-543 *)
  mkClass "StudentT" Continuous NoBounds;            (* 671-687 *)
  mkClass "Lomax" Continuous NoBounds;               (* 719-733 *)
  mkClass "CompoundGamma" Continuous NoBounds;       (* 737-753 *)
  mkClass "VonMises" Continuous Circle;              (* 873-891 *)
  mkClass "ScaledInverseChiSquared" Continuous NoBounds; (* 955-997 *)
  mkClass "LogNormal" Continuous NoBounds;           (* 1293-1307 *)
  mkClass "Weibull" Continuous NoBounds              (* 1311-1375 *)
]%string.

(** A bound is whatever was assigned: a number, or the array or list of a field. *)
Inductive bound_value := BNum (r : R) | BVec (v : param R).

(** A distribution object: class, dataclass fields, and the attributes
    [_min_value] and [_max_value], absent until assigned. *)
Record object := mkObject {
  o_class : plot_class;
  o_fields : list (string * param R);
  o_min : option bound_value;
  o_max : option bound_value
}.

Definition get_field (fields : list (string * param R)) (name : string) : res (param R) :=
  match find (fun p => String.eqb (fst p) name) fields with
  | Some p => Ok (snd p)
  | None => Raise (AttributeError name)
  end.

(** A field as a bound *)
Definition as_bound (v : param R) : bound_value :=
  match v with
  | PArr a => match nd_shape a with [] => BNum (nd_entry a []) | _ => BVec v end
  | _ => BVec v
  end.

(** All multi-indices of a shape, in order *)
Fixpoint indices (s : list nat) : list (list nat) :=
  match s with
  | [] => [[]]
  | d :: s' => flat_map (fun k => map (cons k) (indices s')) (seq 0 d)
  end.
(** ndarray.max *)
Definition nd_max (a : nd R) : res R :=
  match map (nd_entry a) (indices (nd_shape a)) with
  | [] => Raise (ValueError "zero-size array to reduction operation maximum which has no identity")
  | x :: l => Ok (fold_left Rmax l x)
  end.
(** the common code of distributions.py:119-122, 294-297, 346-349, 372-375 *)
Definition max_of (v : param R) : res bound_value :=
  match v with
  | PArr a => match nd_shape a with [] => Ok (BNum (nd_entry a [])) | _ => rmap BNum (nd_max a) end
  | _ => Ok (as_bound v)
  end.

(** Calling the class: the dataclass constructor followed by __post_init__,
    distributions.py:78-79, 118-122, 293-297, 345-349, 371-375, 501-503, 885-887 *)
Definition construct (c : plot_class) (fields : list (string * param R)) : res object :=
  match pc_bounds c with
  | NoBounds => Ok (mkObject c fields None None)
  | MaxOne => Ok (mkObject c fields None (Some (BNum 1)))
  | MaxOf f => let* v := get_field fields f in let* b := max_of v in Ok (mkObject c fields None (Some b))
  | Between lo hi =>
      let* l := get_field fields lo in let* h := get_field fields hi in
      Ok (mkObject c fields (Some (as_bound l)) (Some (as_bound h)))
  | Circle => Ok (mkObject c fields (Some (BNum (- PI))) (Some (BNum PI)))
  end.

(** plot.py:69-74 max_value and 85-90 min_value (which remembers its default) *)
Definition max_value (o : object) : res bound_value :=
  match o_max o with Some b => Ok b | None => Raise (ValueError "Set the max value before plotting.") end.
Definition min_value (o : object) : object * bound_value :=
  match o_min o with
  | Some b => (o, b)
  | None => (mkObject (o_class o) (o_fields o) (Some (BNum 0)) (o_max o), BNum 0)
  end.
(** plot.py:76-83, 92-100 setters *)
Definition set_max_value (v : R) (o : object) : object := mkObject (o_class o) (o_fields o) (o_min o) (Some (BNum v)).
Definition set_min_value (v : R) (o : object) : object := mkObject (o_class o) (o_fields o) (Some (BNum v)) (o_max o).
(** plot.py:102-104 set_bounds *)
Definition set_bounds (lower upper : R) (o : object) : object := set_max_value upper (set_min_value lower o).

(** ** Grids *)

(** numpy.linspace(start, stop, n), endpoint included *)
Definition linspace (start stop : R) (n : nat) : list R :=
  map (fun i => start + INR i * ((stop - start) / (INR n - 1))) (seq 0 n).
(** numpy.arange(start, stop, 1): ceil(stop - start) values *)
Definition ceiling (r : R) : Z := (- Int_part (- r))%Z.
Definition arange (start stop : R) : list R :=
  map (fun i => start + INR i) (seq 0 (Z.to_nat (ceiling (stop - start)))).

(** plot.py:161-162 and 309-310 _create_x_values, for number bounds; array
    bounds give two-dimensional grids, which matplotlib rejects after
    [_reshape_x_values] adds an axis (continuous), or fail in [max_value + 1]
    (discrete: only lists are left, [max_of] reduces arrays) *)
Definition create_x_values (k : kind) (lo hi : bound_value) : res (list R) :=
  match lo, hi with
  | BNum a, BNum b => Ok (match k with
                          | Continuous => linspace a b 100
                          | Discrete => arange a (b + 1) end)
  | _, _ => match k with
            | Continuous => Raise (ValueError "x and y can be no greater than 2D")
            | Discrete => Raise (TypeError "can only concatenate list")
            end
  end.

(** Plotting an object: the object after the call (the default minimum is
    remembered) and the grid.  plot.py:121-127, 234-253: min_value is read first. *)
Definition plot (o : object) : object * res (list R) :=
  let (o', lo) := min_value o in
  (o', let* hi := max_value o' in create_x_values (pc_kind (o_class o)) lo hi).

(** ** Objects and names

    Python variables hold references; methods that set bounds change the object
    and return it.  The heap is a list of objects, a reference a position. *)
Inductive operation :=
| New (c : plot_class) (fields : list (string * param R))
| SetMin (r : nat) (v : R)
| SetMax (r : nat) (v : R)
| SetBounds (r : nat) (lower upper : R)
| Slice (r : nat) (k : key)
| Plot (r : nat).

Inductive event := Ref (r : nat) | Grid (x : list R) | Failed (e : exn).

Definition replace_at (h : list object) (r : nat) (o : object) : list object := firstn r h ++ o :: skipn (S r) h.

Definition on_object (h : list object) (r : nat) (f : object -> list object * event) : list object * event :=
  match nth_error h r with Some o => f o | None => (h, Failed KeyError) end.
Definition update_object (h : list object) (r : nat) (f : object -> object) : list object * event :=
  on_object h r (fun o => (replace_at h r (f o), Ref r)).
Definition allocate (h : list object) (o : res object) : list object * event :=
  match o with Ok o => (h ++ [o], Ref (length h)) | Raise e => (h, Failed e) end.

Definition step (h : list object) (op : operation) : list object * event :=
  match op with
  | New c fields => allocate h (construct c fields)
  | SetMin r v => update_object h r (set_min_value v)
  | SetMax r v => update_object h r (set_max_value v)
  | SetBounds r l u => update_object h r (set_bounds l u)
  | Slice r k => on_object h r (fun o => allocate h (construct (o_class o) (dist_getitem 0 (o_fields o) k)))
  | Plot r => on_object h r (fun o =>
      let (o', x) := plot o in (replace_at h r o', match x with Ok g => Grid g | Raise e => Failed e end))
  end.
Definition run_history (h : list object) (ops : list operation) : list object := fold_left (fun h op => fst (step h op)) ops h.

(** ** Values on the grid *)

(** plot.py:321-325: [yy / np.sum(yy)], rows are grid points, columns curves *)
Definition table_sum (yy : list (list R)) : R := fold_right Rplus 0 (map (fold_right Rplus 0) yy).
Definition conditional_values (yy : list (list R)) : list (list R) :=
  map (map (fun y => y / table_sum yy)) yy.

(** plot.py:106-112 _reshape_x_values: shape of the grid; [floats] says of each
    dataclass field whether it is a Python float *)
Definition reshape_x (n : nat) (floats : list bool) : list nat :=
  if forallb (fun b => b) floats then [n] else [n; 1]%nat.
(** shape of func(x): x broadcast with the parameters *)
Definition yy_shape (n : nat) (floats : list bool) (params : list (list nat)) : option (list nat) :=
  fold_left (fun s p => match s with Some s => broadcast_shapes s p | None => None end) params (Some (reshape_x n floats)).

(** ** Labels *)
Inductive label := LNone | LStr (s : string) | LIter (l : list string) | LCallable (f : nat -> string).
(** What is given to matplotlib: one label, or one for every curve *)
Inductive labels := Single (l : label) | Each (l : list (option string)).

(** [f"{i}"] *)
Definition str_of_nat (n : nat) : string := NilZero.string_of_uint (Nat.to_uint n).

(** plot.py:27-42 label_to_iterable *)
Definition label_to_iterable (l : label) (ncols : nat) : list (option string) :=
  match l with
  | LNone => repeat None ncols
  | LStr s => map (fun i => Some (s ++ " " ++ str_of_nat i)%string) (seq 1 ncols)
  | LCallable f => map (fun i => Some (f i)) (seq 0 ncols)
  | LIter l => map Some l
  end.
(** plot.py:45-57 resolve_label, given the shape of yy *)
Definition resolve_label (l : label) (shape : list nat) : res labels :=
  match shape with
  | [] => Raise IndexError
  | [_] => Ok (Single l)
  | _ :: ncols :: _ => if Nat.eqb ncols 1 then Ok (Single l) else Ok (Each (label_to_iterable l ncols))
  end.

(** ** Ticks: plot.py:348-352, major and minor *)
Fixpoint every (n k : nat) {A} (l : list A) : list A :=   (* x[::n]; k counts down to the next element taken *)
  match l with
  | [] => []
  | a :: l' => match k with O => a :: every n (n - 1) l' | S k' => every n k' l' end
  end.
Definition xticks (lo hi : R) (x : list R) : list R * list R :=
  if Rlt_dec (hi - lo) 15 then (x, []) else (every 5 0 x, x).

(** ** Dirichlet: plot.py:190-228

    One kernel density estimate for every column of the samples.  The samples
    come from [dist.rvs(size, random_state)]; VectorizedDist.rvs takes no
    random_state (distributions.py:136-137).  A label without a column makes the
    loop call [gaussian_kde(None)], which scipy rejects. *)
Fixpoint zip_longest {A B} (a : list A) (b : list B) : list (option A * option B) :=
  match a, b with
  | [], _ => map (fun y => (None, Some y)) b
  | _, [] => map (fun x => (Some x, None)) a
  | x :: a', y :: b' => (Some x, Some y) :: zip_longest a' b'
  end.
(** the columns drawn with their labels, or the exception *)
Definition dirichlet_plot (d : Dirichlet R) (l : label) : res (list (nat * option string)) :=
  let* dd := Dirichlet_dist d in
  match dd with
  | Vectorized _ => Raise (TypeError "rvs() got an unexpected keyword argument 'random_state'")
  | One a =>
      let ncols := nth 0 (nd_shape a) 0%nat in
      sequence (map (fun p => match p with
                 | (Some col, Some lab) => Ok (col, lab)
                 | (Some col, None) => Ok (col, None)
                 | (None, _) => Raise (ValueError "`dataset` input should have multiple elements.")
                 end) (zip_longest (seq 0 ncols) (label_to_iterable l ncols)))
  end.
