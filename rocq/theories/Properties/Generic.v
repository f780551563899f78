(** C29 (empty batch), C32, C33, C53, C58: vectorised, symbolic and raising calls. *)

From Coq Require Import ZArith Reals Lra String.
From Verif Require Import Model.Num Model.Py Model.Dists Model.Models Model.Table Model.NdArray Model.Symbolic Model.PyNum.
From Verif Require Import Spec.Defined Spec.Shapes.
From Verif Require Import Proofs.Param Proofs.Shapes Proofs.PyNum Proofs.Construct.
From Coq Require Import List.
Import ListNotations.
Open Scope R_scope.

(** C29: normal with an empty batch raises instead of returning the prior. *)
Theorem C29_normal_no_data :
  forall (arctan2 : R -> R -> R) (x x2 mu a b nu : R),
  run_py arctan2 F_normal_nig [x; x2; 0; mu; a; b; nu] = Raise ZeroDivisionError /\
  run_py arctan2 F_normal_ng [x; x2; 0; mu; nu; a; b] = Raise ZeroDivisionError.
Proof. exact normal_no_data. Qed.

Print Assumptions C29_normal_no_data.

(** C58: a call with Python numbers returns exactly under the condition of
    [Spec/Defined.v]; otherwise it raises (or leaves the reals). *)
Theorem C58_raises_exactly :
  forall (arctan2 : R -> R -> R) (f : fn) (args : list R), length args = arity f ->
  ((exists out, run_py arctan2 f args = Ok out) <-> defined f args).
Proof. exact run_py_defined. Qed.

Example C58_case : defined F_normal_nig [10; 30; 4; 0; 1; 1; 1] /\ ~ defined F_normal_nig [0; 0; 0; 0; 1; 1; 1].
Proof. simpl. split; lra. Qed.

Print Assumptions C58_raises_exactly.

(** C58: and what it returns is what the real-number model returns. *)
Theorem C58_returns_the_model :
  forall (arctan2 : R -> R -> R) (f : fn) (args out : list R),
  run_py arctan2 f args = Ok out -> run (Ufuncs_R arctan2) f args = Ok out.
Proof. exact run_py_sound. Qed.

Example C58_case2 : run (Ufuncs_R (fun _ _ => 0)) F_binomial_beta [5; 3; 1; 1] = Ok [1 + 3; 1 + (5 - 3)].
Proof. reflexivity. Qed.

Print Assumptions C58_returns_the_model.

(** C32: arguments whose shapes fit a common shape are never rejected, the
    result fits the same shape, and each of its entries is the scalar call on
    the corresponding entries of the arguments. *)
Theorem C32_entries_are_scalar_calls :
  forall (A : Type) (NA : Num A) (U : Ufuncs A) (f : fn) (args : list (nd A)) (s : list nat),
  length args = arity f -> Forall (fun a => fits (nd_shape a) s) args ->
  exists out, run_nd U f args = Ok out /\ length out = length (deps f) /\
    Forall (fun a => fits (nd_shape a) s) out /\
    forall i, run U f (map (at_index i) args) = Ok (map (at_index i) out).
Proof. exact @run_nd_entrywise. Qed.

(** two priors (column) x three data sets (row) *)
Example C32_case :
  let n := mkNd [3%nat] (fun i => INR (10 + nth 0 i 0%nat)) in
  let x := mkNd [3%nat] (fun i => INR (nth 0 i 0%nat)) in
  let a := mkNd [2%nat; 1%nat] (fun i => INR (1 + nth 0 i 0%nat)) in
  let b := scalar 1 in
  Forall (fun a => fits (nd_shape a) [2%nat; 3%nat]) [n; x; a; b] /\
  exists out, run_nd (Ufuncs_R (fun _ _ => 0)) F_binomial_beta [n; x; a; b] = Ok out /\
  map nd_shape out = [[2%nat; 3%nat]; [3%nat]] /\ map (at_index [1%nat; 2%nat]) out = [2 + 2; 1 + (12 - 2)].
Proof.
  split.
  - repeat (constructor; [repeat (constructor; auto)|]). constructor.
  - eexists. split; [reflexivity|]. split; [reflexivity|].
    unfold at_index. simpl. repeat f_equal; lra.
Qed.

Print Assumptions C32_entries_are_scalar_calls.

(** C32: shapes.  The call returns iff, for every parameter of the result, the
    arguments it depends on have compatible shapes; the parameter then has
    their joint shape.  Otherwise it raises ValueError. *)
Theorem C32_shapes :
  forall (A : Type) (NA : Num A) (U : Ufuncs A) (f : fn) (args : list (nd A)),
  length args = arity f ->
  let needed := map (pick [] (map nd_shape args)) (deps f) in
  match run_nd U f args with
  | Ok out => Forall2 (fun a l => joint l (nd_shape a)) out needed
  | Raise e => e = ValueError "operands could not be broadcast together" /\ Exists incompatible needed
  end.
Proof. exact @run_nd_joint. Qed.

Example C32_case_shapes :
  let v k := mkNd [k] (fun _ => 1) in
  run_nd (Ufuncs_R (fun _ _ => 0)) F_binomial_beta [scalar 1; v 3%nat; v 2%nat; scalar 1]
  = Raise (ValueError "operands could not be broadcast together").
Proof. reflexivity. Qed.

Print Assumptions C32_shapes.

(** C32, "incompatible shapes raise": not for parameters that are never
    combined.  With three values of n and two values of alpha the posterior has
    parameters of shapes (2,) and (3,). *)
Theorem C32_incompatible_raise_refuted :
  exists (f : fn) (args : list (nd R)), length args = arity f /\ incompatible (map nd_shape args) /\
  exists out, run_nd (Ufuncs_R (fun _ _ => 0)) f args = Ok out /\ incompatible (map nd_shape out).
Proof. exact incompatible_accepted. Qed.

Print Assumptions C32_incompatible_raise_refuted.

(** C33: evaluating the symbolic posterior in any row is calling the model on
    the evaluated inputs, for every number type and every function. *)
Theorem C33_symbolic_inputs :
  forall (A : Type) (NA : Num A) (U : Ufuncs A) (row : nat -> A) (f : fn) (args : list expr),
  run U f (map (eval U row) args) = rmap (map (eval U row)) (run Ufuncs_expr f args).
Proof. exact @run_symbolic. Qed.

(** docs/examples/sql.md: binomial_beta on two columns *)
Example C33_case :
  run Ufuncs_expr F_binomial_beta [EVar 0; EVar 1; ELit 1; ELit 1]
  = Ok [EAdd (ELit 1) (EVar 1); EAdd (ELit 1) (ESub (EVar 0) (EVar 1))].
Proof. reflexivity. Qed.

Print Assumptions C33_symbolic_inputs.

(** C33: more generally, any relation between two number types that their
    operators preserve is preserved by every model function: the code uses
    nothing else of its inputs. *)
Theorem C33_parametric :
  forall (A B : Type) (NA : Num A) (NB : Num B) (UA : Ufuncs A) (UB : Ufuncs B) (R : A -> B -> Prop),
  NumRel NA NB UA UB R -> forall f args args', Forall2 R args args' ->
  res_rel R (run UA f args) (run UB f args').
Proof. exact @run_rel. Qed.

Example C33_case_parametric : NumRel NumExpr NumR Ufuncs_expr (Ufuncs_R (fun _ _ => 0)) (fun e x => eval (Ufuncs_R (fun _ _ => 0)) INR e = x).
Proof. exact (expr_rel _ _). Qed.

Print Assumptions C33_parametric.

(** C53: the constructor *)
Theorem C53_exactly_one :
  forall (V M A : Type) (mu : V) (alpha beta : A) (delta_inverse : option M) (nu : option A),
  ((exists d, new_NormalInverseGamma mu alpha beta delta_inverse nu = Ok d) <->
   ((delta_inverse <> None /\ nu = None) \/ (delta_inverse = None /\ nu <> None))) /\
  (forall d, new_NormalInverseGamma mu alpha beta delta_inverse nu = Ok d ->
   NormalInverseGamma_mu d = mu /\ NormalInverseGamma_alpha d = alpha /\ NormalInverseGamma_beta d = beta /\
   NormalInverseGamma_delta_inverse d = delta_inverse /\ NormalInverseGamma_nu d = nu) /\
  (forall e, new_NormalInverseGamma mu alpha beta delta_inverse nu = Raise e -> exists msg, e = ValueError msg).
Proof. exact @nig_exactly_one. Qed.

Example C53_case : exists d, new_NormalInverseGamma (M := unit) 0 1 1 None (Some 2) = Ok d.
Proof. eexists. reflexivity. Qed.

Print Assumptions C53_exactly_one.

(** C53: normal (and log_normal) with a matrix prior raise ValueError; with a prior
    built by the constructor they return a prior of the same family that the
    constructor accepts. *)
Theorem C53_normal_needs_nu :
  forall (A : Type) (NA : Num A) (M : Type) (x x2 n mu alpha beta : A) (delta_inverse : option M) (nu : option A)
    (d : NormalInverseGamma A M A),
  new_NormalInverseGamma mu alpha beta delta_inverse nu = Ok d ->
  (delta_inverse <> None -> normal x x2 n (PNIG d) = Raise (ValueError "nu must be provided for the prior") /\
                            log_normal x x2 n (PNIG d) = Raise (ValueError "nu must be provided for the prior")) /\
  (delta_inverse = None -> exists mu' alpha' beta' nu' d',
     normal x x2 n (PNIG d) = Ok (PNIG d') /\ new_NormalInverseGamma mu' alpha' beta' (@None M) (Some nu') = Ok d').
Proof. exact @nig_normal. Qed.

Print Assumptions C53_normal_needs_nu.

(** C53: normal_predictive of a matrix prior fails too, but with Python's own
    TypeError; of any other prior it returns a StudentT around the prior mean. *)
Theorem C53_predictive_needs_nu :
  forall (A : Type) (NA : Num A) (M : Type) (mu alpha beta : A) (delta_inverse : option M) (nu : option A)
    (d : NormalInverseGamma A M A),
  new_NormalInverseGamma mu alpha beta delta_inverse nu = Ok d ->
  (delta_inverse <> None -> exists msg, normal_predictive (PNIG d) = Raise (TypeError msg)) /\
  (delta_inverse = None -> exists t, normal_predictive (PNIG d) = Ok t /\ StudentT_mu t = mu).
Proof. exact @nig_predictive. Qed.

Example C53_predictive_case : exists d, new_NormalInverseGamma (M := unit) 0 1 1 (Some tt) None = Ok d.
Proof. eexists. reflexivity. Qed.

Print Assumptions C53_predictive_needs_nu.
