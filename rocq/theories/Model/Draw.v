(** Drawing: plot.py from the grid of x values to the calls on the matplotlib
    Axes, and the [dist] property of every plottable class as a function of its
    dataclass fields.

    External, hence arguments: [f], scipy's (or the library's) element-wise pdf,
    pmf or cdf of one distribution at one point; [is_float], Python's
    [isinstance(value, float)]; [show], the formatting of a float; the release of
    scipy.  What matplotlib does with the arrays it is given is [axes_plot].
    Keyword arguments other than [label] and [color] are handed to matplotlib
    unchanged and are left out. *)

From Coq Require Import ZArith Bool String List Reals.
From Verif Require Import Model.Num Model.Py Model.Dists Model.ScipyDist Model.NdArray Model.SliceModel Model.PlotModel.
From Coq Require Import List.
Import ListNotations.
Open Scope R_scope.

(** ** The dist property, by class *)

Section ClassDist.
Context {A : Type} {NA : Num A}.
(** [get] reads a number-like field, [flag] a boolean one *)
Definition dist_property := (string -> res A) -> (string -> res bool) -> res (frozen A).

Definition dist1 (F : A -> frozen A) (a : string) : dist_property :=
  fun get _ => let* x := get a in Ok (F x).
Definition dist2 (F : A -> A -> frozen A) (a b : string) : dist_property :=
  fun get _ => let* x := get a in let* y := get b in Ok (F x y).
Definition dist3 (F : A -> A -> A -> frozen A) (a b c : string) : dist_property :=
  fun get _ => let* x := get a in let* y := get b in let* z := get c in Ok (F x y z).

(** the classes of [plot_classes]; distributions.py, lines in [ScipyDist] *)
Definition dist_properties (release : list nat) : list (string * dist_property) := [
  ("Beta", dist2 (fun a b => Beta_dist (mkBeta a b)) "alpha" "beta");
  ("Binomial", dist2 (fun n p => Binomial_dist (mkBinomial n p)) "n" "p");
  ("Exponential", dist1 (fun l => Exponential_dist (mkExponential l)) "lam");
  ("Gamma", dist2 (fun a b => Gamma_dist (mkGamma a b)) "alpha" "beta");
  ("NegativeBinomial", dist2 (fun n p => NegativeBinomial_dist (mkNegativeBinomial n p)) "n" "p");
  ("Hypergeometric", dist3 (fun N k n => Hypergeometric_dist (mkHypergeometric N k n)) "N" "k" "n");
  ("Poisson", dist1 (fun l => Poisson_dist (mkPoisson l)) "lam");
  ("BetaBinomial", dist3 (fun n a b => BetaBinomial_dist (mkBetaBinomial n a b)) "n" "alpha" "beta");
  ("BetaNegativeBinomial", fun get _ =>
      let* n := get "n"%string in let* a := get "alpha"%string in let* b := get "beta"%string in
      BetaNegativeBinomial_dist release (mkBetaNegativeBinomial n a b));
  ("Geometric", fun get flag =>
      let* p := get "p"%string in let* one_start := flag "one_start"%string in Ok (Geometric_dist (mkGeometric p one_start)));
  ("BetaGeometric", fun get flag =>
      let* a := get "alpha"%string in let* b := get "beta"%string in let* one_start := flag "one_start"%string in
      Ok (BetaGeometric_dist (mkBetaGeometric a b one_start)));
  ("Normal", dist2 (fun m s => Normal_dist (mkNormal m s)) "mu" "sigma");
  ("Uniform", dist2 (fun l h => Uniform_dist (mkUniform l h)) "low" "high");
  ("Pareto", dist2 (fun x a => Pareto_dist (mkPareto x a)) "x_m" "alpha");
  ("InverseGamma", dist2 (fun a b => InverseGamma_dist (mkInverseGamma a b)) "alpha" "beta");
  ("StudentT", dist3 (fun m s n => StudentT_dist (mkStudentT m s n)) "mu" "sigma" "nu");
  ("Lomax", dist2 (fun a l => Lomax_dist (mkLomax a l)) "alpha" "lam");
  ("CompoundGamma", dist3 (fun a b l => CompoundGamma_dist (mkCompoundGamma a b l)) "alpha" "beta" "lam");
  ("VonMises", dist2 (fun m k => VonMises_dist (mkVonMises m k)) "mu" "kappa");
  ("ScaledInverseChiSquared", dist2 (fun n s => ScaledInverseChiSquared_dist (mkScaledInverseChiSquared n s)) "nu" "sigma2");
  ("LogNormal", dist2 (fun m s => LogNormal_dist (mkLogNormal m s)) "mu" "sigma");
  ("Weibull", dist2 (fun b t => Weibull_dist (mkWeibull b t)) "beta" "theta")
]%string.

Definition class_dist (release : list nat) (name : string) : dist_property :=
  match find (fun p => String.eqb (fst p) name) (dist_properties release) with
  | Some p => snd p
  | None => fun _ _ => Raise (NotImplementedError "Implement this property in the subclass.")  (* plot.py:63-67 *)
  end.
End ClassDist.
Arguments dist_property : clear implicits.

(** The dataclass fields, in order: distributions.py, the lines after each class *)
Inductive field_kind := Number | Flag.
Definition dataclass_fields : list (string * list (string * field_kind)) := [
  ("Beta", [("alpha", Number); ("beta", Number)]);                              (* 75-76 *)
  ("Binomial", [("n", Number); ("p", Number)]);                                 (* 115-116 *)
  ("Exponential", [("lam", Number)]);                                           (* 214 *)
  ("Gamma", [("alpha", Number); ("beta", Number)]);                             (* 238-239 *)
  ("NegativeBinomial", [("n", Number); ("p", Number)]);                         (* 265-266 *)
  ("Hypergeometric", [("N", Number); ("k", Number); ("n", Number)]);            (* 289-291 *)
  ("Poisson", [("lam", Number)]);                                               (* 313 *)
  ("BetaBinomial", [("n", Number); ("alpha", Number); ("beta", Number)]);       (* 341-343 *)
  ("BetaNegativeBinomial", [("n", Number); ("alpha", Number); ("beta", Number)]); (* 367-369 *)
  ("Geometric", [("p", Number); ("one_start", Flag)]);                          (* 396-397 *)
  ("BetaGeometric", [("alpha", Number); ("beta", Number); ("one_start", Flag)]); (* 416-418 *)
  ("Normal", [("mu", Number); ("sigma", Number)]);                              (* 435-436 *)
  ("Uniform", [("low", Number); ("high", Number)]);                             (* 498-499 *)
  ("Pareto", [("x_m", Number); ("alpha", Number)]);                             (* 520-521 *)
  ("InverseGamma", [("alpha", Number); ("beta", Number)]);                      (* 538-539 *)
  ("StudentT", [("mu", Number); ("sigma", Number); ("nu", Number)]);            (* 681-683 *)
  ("Lomax", [("alpha", Number); ("lam", Number)]);                              (* 728-729 *)
  ("CompoundGamma", [("alpha", Number); ("beta", Number); ("lam", Number)]);    (* 747-749 *)
  ("VonMises", [("mu", Number); ("kappa", Number)]);                            (* 882-883 *)
  ("ScaledInverseChiSquared", [("nu", Number); ("sigma2", Number)]);            (* 964-965 *)
  ("LogNormal", [("mu", Number); ("sigma", Number)]);                           (* 1302-1303 *)
  ("Weibull", [("beta", Number); ("theta", Number)])                            (* 1349-1350 *)
]%string.

(** Fields that the library itself computes with before scipy sees them:
    distributions.py:246, 996, 1354-1355 and _compound_gamma.py:8.  A Python list
    there is a TypeError; elsewhere scipy converts it (or [x / q], an array, does).
    Simplified: for sigma2, theta, and beta and lam of CompoundGamma there is no
    error if the other operand is an array, which converts the list as well. *)
Definition computed_fields : list (string * string) := [
  ("Gamma", "beta"); ("ScaledInverseChiSquared", "nu"); ("ScaledInverseChiSquared", "sigma2");
  ("Weibull", "beta"); ("Weibull", "theta"); ("CompoundGamma", "alpha"); ("CompoundGamma", "beta"); ("CompoundGamma", "lam")
]%string.
Definition asarray (l : list R) : nd R := mkNd [length l] (fun i => nth (hd 0%nat i) l 0).

Definition array_field (c : string) (fields : list (string * param R)) (name : string) : res (nd R) :=
  let* v := get_field fields name in
  match v with
  | PArr a => Ok a
  | PList l => if existsb (fun p => String.eqb (fst p) c && String.eqb (snd p) name) computed_fields
               then Raise (TypeError "unsupported operand type(s) for list") else Ok (asarray l)
  | PFlag b => Ok (scalar (if b then 1 else 0))   (* bool is an int *)
  end.
Definition flag_field (fields : list (string * param R)) (name : string) : res bool :=
  let* v := get_field fields name in
  match v with PFlag b => Ok b | _ => Raise (TypeError "flags only") end.

(** ** Evaluation on arrays *)

Definition frozen_map {A B} (g : A -> B) (d : frozen A) : frozen B :=
  match d with
  | S_beta a b => S_beta (g a) (g b)
  | S_binom n p => S_binom (g n) (g p)
  | S_expon_scale s => S_expon_scale (g s)
  | S_gamma_scale a s => S_gamma_scale (g a) (g s)
  | S_nbinom n p => S_nbinom (g n) (g p)
  | S_hypergeom M n N => S_hypergeom (g M) (g n) (g N)
  | S_poisson m => S_poisson (g m)
  | S_betabinom n a b => S_betabinom (g n) (g a) (g b)
  | S_betanbinom n a b => S_betanbinom (g n) (g a) (g b)
  | S_geom_loc p l => S_geom_loc (g p) (g l)
  | S_norm m s => S_norm (g m) (g s)
  | S_uniform l s => S_uniform (g l) (g s)
  | S_pareto_scale b s => S_pareto_scale (g b) (g s)
  | S_invgamma_scale a s => S_invgamma_scale (g a) (g s)
  | S_t n m s => S_t (g n) (g m) (g s)
  | S_lomax_scale c s => S_lomax_scale (g c) (g s)
  | S_vonmises_loc k l => S_vonmises_loc (g k) (g l)
  | S_lognorm_loc s l => S_lognorm_loc (g s) (g l)
  | S_weibull_min_scale c s => S_weibull_min_scale (g c) (g s)
  | C_beta_geometric a b o => C_beta_geometric (g a) (g b) o
  | C_compound_gamma a b q => C_compound_gamma (g a) (g b) (g q)
  end.
Definition frozen_args {A} (d : frozen A) : list A :=
  match d with
  | S_expon_scale a | S_poisson a => [a]
  | S_beta a b | S_binom a b | S_gamma_scale a b | S_nbinom a b | S_geom_loc a b | S_norm a b | S_uniform a b
  | S_pareto_scale a b | S_invgamma_scale a b | S_lomax_scale a b | S_vonmises_loc a b | S_lognorm_loc a b
  | S_weibull_min_scale a b | C_beta_geometric a b _ => [a; b]
  | S_hypergeom a b c | S_betabinom a b c | S_betanbinom a b c | S_t a b c | C_compound_gamma a b c => [a; b; c]
  end.

(** numpy and scipy: [func(x)] broadcasts x with the parameters and acts entry by entry *)
Definition entry_at (i : list nat) (a : res (nd R)) : R := match a with Ok a => at_index i a | Raise _ => 0 end.
Definition evaluate (f : frozen R -> R -> R) (d : frozen (res (nd R))) (n : nat) (floats : list bool) (x : nd R) : res (nd R) :=
  let* args := sequence (frozen_args d) in
  match yy_shape n floats (map nd_shape args) with
  | None => Raise (ValueError "operands could not be broadcast together")
  | Some s => Ok (mkNd s (fun i => f (frozen_map (entry_at i) d) (at_index i x)))
  end.

(** scipy's frozen distributions have a cdf, the library's own classes do not:
    _beta_geometric.py:18-48, _compound_gamma.py:11-35 *)
Definition has_cdf {A} (d : frozen A) : bool :=
  match d with C_beta_geometric _ _ _ | C_compound_gamma _ _ _ => false | _ => true end.

(** ** Calls on the Axes *)

Inductive axes_call :=
| SetPropCycle (colors : list string)
| PlotCall (x yy : nd R) (mark : option string) (l : option labels)
| SetXlabel (s : string)
| SetYlabel (s : string)
| SetYlimFromZero
| SetXticks (ticks : list R) (minor : bool).

(** The modelled keyword arguments; None: not given *)
Record style := mkStyle { st_label : option label; st_color : option (list string) }.

(** the grid as an array, after plot.py:106-112 *)
Definition grid_array (floats : list bool) (g : list R) : nd R :=
  mkNd (reshape_x (length g) floats) (fun i => nth (hd 0%nat i) g 0).

(** plot.py:175-179 and 334-338 *)
Definition style_label (st : style) (yy : nd R) : res (option labels) :=
  match st_label st with None => Ok None | Some l => rmap Some (resolve_label l (nd_shape yy)) end.
(** plot.py:181-182 and 340-341; a str is Iterable too *)
Definition style_color (st : style) : list axes_call :=
  match st_color st with None => [] | Some c => [SetPropCycle c] end.

(** plot.py:164-169 _setup_labels *)
Definition setup_labels (polar cdf : bool) : list axes_call :=
  if polar then [] else [SetXlabel "Domain"; SetYlabel (if cdf then "Cumulative Density $F(x)$" else "Density $f(x)$")].

(** ndarray.sum *)
Definition nd_total (a : nd R) : R := fold_right Rplus 0 (map (nd_entry a) (indices (nd_shape a))).

Section Drawing.
Variable release : list nat.
Variable is_float : param R -> bool.
Variable show : R -> string.
Variable f : bool -> frozen R -> R -> R.   (* cdf?, distribution, point *)

Definition object_dist (o : object) : res (frozen (res (nd R))) :=
  class_dist release (pc_name (o_class o))
    (fun name => rmap Ok (array_field (pc_name (o_class o)) (o_fields o) name))
    (flag_field (o_fields o)).

(** the values on the grid: plot.py:172-173, 318-319 *)
Definition curve_values (o : object) (cdf : bool) (g : list R) : res (nd R * nd R) :=
  let floats := map (fun p => is_float (snd p)) (o_fields o) in
  let x := grid_array floats g in
  let* d := object_dist o in
  if cdf && negb (has_cdf d) then Raise (AttributeError "cdf") else
  let* yy := evaluate (f cdf) d (length g) floats x in
  Ok (x, yy).

(** plot.py:171-187 ContinuousPlotDistMixin._create_plot_on_axis *)
Definition continuous_calls (o : object) (cdf polar : bool) (st : style) (g : list R) : res (list axes_call) :=
  let* (x, yy) := curve_values o cdf g in
  let* l := style_label st yy in
  Ok (style_color st ++ [PlotCall x yy None l] ++ setup_labels polar cdf ++ [SetYlimFromZero]).

(** plot.py:321-332: the values and the label of the y axis *)
Definition discrete_values (cdf conditional : bool) (lo hi : R) (yy : nd R) : nd R * string :=
  if conditional
  then (mkNd (nd_shape yy) (fun i => nd_entry yy i / nd_total yy),
        ("Conditional " ++ (if cdf then "Cumulative Probability $F(X \leq x" else "Probability $f(x")
         ++ "|" ++ show lo ++ " \leq x \leq " ++ show hi ++ ")$")%string)
  else (yy, if cdf then "Cumulative Probability $F(X \leq x)$"%string else "Probability $f(x)$"%string).

(** plot.py:312-357 DiscretePlotMixin._create_plot_on_axis *)
Definition discrete_calls (o : object) (cdf conditional : bool) (mark : string) (st : style) (lo hi : R) (g : list R) :
  res (list axes_call) :=
  let* (x, yy) := curve_values o cdf g in
  let (yy, ylabel) := discrete_values cdf conditional lo hi yy in
  let* l := style_label st yy in
  let (major, minor) := xticks lo hi g in
  Ok (style_color st ++ [PlotCall x yy (Some mark) l]
      ++ (if Rlt_dec (hi - lo) 15 then [SetXticks major false] else [SetXticks minor true; SetXticks major false])
      ++ [SetXlabel "Domain"; SetYlabel ylabel; SetYlimFromZero]).

(** plot.py:121-159 and 234-307: plot_pdf, plot_pmf, plot_cdf.  [conditional] and
    [mark] are arguments of the discrete version only, [polar] matters for the
    continuous one only.  The result: the object afterwards (the default minimum
    is remembered) and the calls on the Axes. *)
Definition draw (o : object) (cdf conditional polar : bool) (mark : string) (st : style) : object * res (list axes_call) :=
  let (o', grid) := plot o in
  (o', let* g := grid in
       match pc_kind (o_class o) with
       | Continuous => continuous_calls o' cdf polar st g
       | Discrete =>
           match o_min o', o_max o' with
           | Some (BNum lo), Some (BNum hi) => discrete_calls o' cdf conditional mark st lo hi g
           | _, _ => Raise (TypeError "bounds")   (* the grid has failed before *)
           end
       end).
End Drawing.

(** ** matplotlib: the lines that [Axes.plot(x, y, label=...)] adds

    x and y of one or two dimensions, the same number of rows; a column (a
    one-dimensional array is one) of y for every line, columns of x reused; a
    label that is not a str and has a length must have one entry for every line,
    if there are several lines. *)
Inductive line_label :=
| Text (s : option string)
| Printed (l : label).      (* str() of a Python object *)
Record line := mkLine { points : list (R * R); line_text : line_label }.

Definition columns (a : nd R) : option (nat * nat * (nat -> nat -> R)) :=   (* rows, columns, entries *)
  match nd_shape a with
  | [n] => Some (n, 1%nat, fun i _ => nd_entry a [i])
  | [n; m] => Some (n, m, fun i j => nd_entry a [i; j])
  | _ => None
  end.
Definition line_labels (m : nat) (l : option labels) : res (list line_label) :=
  match l with
  | None => Ok (repeat (Text None) m)
  | Some (Single LNone) => Ok (repeat (Text None) m)
  | Some (Single (LStr s)) => Ok (repeat (Text (Some s)) m)
  | Some (Single (LIter l)) =>
      if Nat.eqb (length l) m then Ok (map (fun s => Text (Some s)) l)
      else if Nat.eqb m 1 then Ok [Printed (LIter l)]
      else Raise (ValueError "label must be scalar or have the same length as the input data")
  | Some (Single (LCallable g)) => Ok (repeat (Printed (LCallable g)) m)
  | Some (Each l) =>
      if Nat.eqb (length l) m then Ok (map Text l)
      else Raise (ValueError "label must be scalar or have the same length as the input data")
  end.
Definition axes_plot (x yy : nd R) (l : option labels) : res (list line) :=
  match columns x, columns yy with
  | Some (nx, mx, ex), Some (ny, my, ey) =>
      if negb (Nat.eqb nx ny) then Raise (ValueError "x and y must have same first dimension") else
      if Nat.eqb mx 0 || Nat.eqb my 0 then Ok [] else
      if negb (Nat.eqb mx 1) && negb (Nat.eqb my 1) && negb (Nat.eqb mx my)
      then Raise (ValueError "x has columns but y has columns") else
      let m := Nat.max mx my in
      let* texts := line_labels m l in
      Ok (map (fun p => mkLine (map (fun i => (ex i (Nat.modulo (fst p) mx), ey i (Nat.modulo (fst p) my))) (seq 0 nx)) (snd p))
              (combine (seq 0 m) texts))
  | _, _ => Raise (ValueError "x and y can be no greater than 2D")
  end.

(** All lines the calls add to the Axes *)
Fixpoint lines_of (calls : list axes_call) : res (list line) :=
  match calls with
  | [] => Ok []
  | PlotCall x yy _ l :: calls' => let* a := axes_plot x yy l in let* b := lines_of calls' in Ok (a ++ b)
  | _ :: calls' => lines_of calls'
  end.
