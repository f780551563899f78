(** Calls of the element-wise model functions as a Python program makes them: by
    name, with keyword arguments that are Python objects.

    [Model/Validate.v] has the decorators and the binding of arguments,
    [Model/Models.v] the arithmetic; this file joins them.  A body reads its
    arguments by name, reads the attributes of the prior by name, and returns an
    instance of a distribution class. *)

From Coq Require Import ZArith Bool String List.
From Verif Require Import Model.Num Model.Py Model.Dists Model.Models Model.Table Model.Validate.
Import ListNotations.
Open Scope string_scope.
Open Scope list_scope.

Section ByName.
Context {A : Type} {NA : Num A} (U : Ufuncs A).

(** Attributes of a distribution and values of arguments.  The matrix
    [delta_inverse] is not a number; the element-wise functions never look into it. *)
Inductive attr := ANum (a : A) | ABool (b : bool) | ANone.
Inductive pyval :=
| VNum (a : A)                               (* a number or an array of numbers *)
| VBool (b : bool)
| VFun1 (f : A -> A)
| VFun2 (f : A -> A -> A)
| VDist (fields : list (string * attr)).     (* an instance: its attributes *)
Notation ob := (obj pyval).
Notation kws := (kwargs pyval).

Definition operand {B} : res B := Raise (TypeError "unsupported operand type(s)").

Definition as_num (o : ob) : res A := match o with OInst _ _ (VNum a) => Ok a | _ => operand end.
Definition num (kw : kws) (name : string) : res A := as_num (get name kw).

(** An argument the body never uses may be anything *)
Definition unused (kw : kws) (name : string) : A := match num kw name with Ok a => a | Raise _ => nlit 0 end.

(** An optional argument: the default when the keyword is not given *)
Definition given (kw : kws) (name : string) : option ob :=
  match find (fun p => String.eqb (fst p) name) kw with Some p => Some (snd p) | None => None end.
Definition num_or (kw : kws) (name : string) (default : A) : res A :=
  match given kw name with Some o => as_num o | None => Ok default end.
(** the truth value of a flag; of a number it would be [a != 0], left out *)
Definition bool_or (kw : kws) (name : string) (default : bool) : res bool :=
  match given kw name with
  | Some (OInst _ _ (VBool b)) => Ok b | Some ONone => Ok false | Some _ => operand | None => Ok default end.
Definition fun1_or (kw : kws) (name : string) (default : A -> A) : res (A -> A) :=
  match given kw name with
  | Some (OInst _ _ (VFun1 f)) => Ok f | Some _ => Raise (TypeError "object is not callable") | None => Ok default end.
Definition fun2_or (kw : kws) (name : string) (default : A -> A -> A) : res (A -> A -> A) :=
  match given kw name with
  | Some (OInst _ _ (VFun2 f)) => Ok f | Some _ => Raise (TypeError "object is not callable") | None => Ok default end.

(** [prior.alpha] *)
Definition attribute (o : ob) (name : string) : res attr :=
  match o with
  | OInst _ _ (VDist fields) =>
      match find (fun p => String.eqb (fst p) name) fields with
      | Some p => Ok (snd p)
      | None => Raise (AttributeError name)
      end
  | _ => Raise (AttributeError name)
  end.
Definition num_attr (o : ob) (name : string) : res A :=
  let* a := attribute o name in match a with ANum a => Ok a | _ => operand end.
Definition opt_attr (o : ob) (name : string) : res (option A) :=
  let* a := attribute o name in match a with ANum a => Ok (Some a) | ANone => Ok None | _ => operand end.
Definition attrs2 {D} (mk : A -> A -> D) (a b : string) (o : ob) : res D :=
  let* x := num_attr o a in let* y := num_attr o b in Ok (mk x y).
Definition attrs3 {D} (mk : A -> A -> A -> D) (a b c : string) (o : ob) : res D :=
  let* x := num_attr o a in let* y := num_attr o b in let* z := num_attr o c in Ok (mk x y z).
Definition attrs4 {D} (mk : A -> A -> A -> A -> D) (a b c d : string) (o : ob) : res D :=
  let* x := num_attr o a in let* y := num_attr o b in let* z := num_attr o c in let* w := num_attr o d in Ok (mk x y z w).

(** The attributes the bodies read: the fields of distributions.py *)
Definition get_Beta := attrs2 mkBeta "alpha" "beta".
Definition get_BetaBinomial := attrs3 mkBetaBinomial "n" "alpha" "beta".
Definition get_Gamma := attrs2 mkGamma "alpha" "beta".
Definition get_Normal := attrs2 mkNormal "mu" "sigma".
Definition get_InverseGamma := attrs2 mkInverseGamma "alpha" "beta".
Definition get_SICS := attrs2 mkScaledInverseChiSquared "nu" "sigma2".
Definition get_NormalGamma := attrs4 mkNormalGamma "mu" "lam" "alpha" "beta".
Definition get_NIG (o : ob) : res (NormalInverseGamma A A A) :=
  let* nu := opt_attr o "nu" in let* mu := num_attr o "mu" in
  let* alpha := num_attr o "alpha" in let* beta := num_attr o "beta" in
  let* delta_inverse := opt_attr o "delta_inverse" in
  Ok (mkNormalInverseGamma mu alpha beta delta_inverse nu).
Definition get_Pareto := attrs2 mkPareto "x_m" "alpha".
Definition get_GammaProportional := attrs4 mkGammaProportional "p" "q" "r" "s".
Definition get_GammaKnownRate := attrs3 mkGammaKnownRateProportional "a" "b" "c".
Definition get_BetaProportional := attrs3 mkBetaProportional "p" "q" "k".
Definition get_VonMisesConcentration := attrs2 mkVonMisesKnownConcentration "a" "b".
Definition get_VonMisesDirection := attrs2 mkVonMisesKnownDirectionProportional "c" "r".

(** models.py:1124-1125 (posterior) and 1208-1209 (predictive): which class is tested *)
Definition get_VariancePrior (test_inverse_gamma : bool) (o : ob) : res (VariancePrior A) :=
  if (if test_inverse_gamma then is_instance1 o cInverseGamma else negb (is_instance1 o cScaledInverseChiSquared))
  then rmap VIG (get_InverseGamma o) else rmap VSICS (get_SICS o).
(** models.py:1258-1287 (posterior) and 1335-1339 (predictive) *)
Definition get_NormalPrior (test_normal_gamma : bool) (o : ob) : res (NormalPrior A A) :=
  if (if test_normal_gamma then is_instance1 o cNormalGamma else negb (is_instance1 o cNormalInverseGamma))
  then rmap PNG (get_NormalGamma o) else rmap PNIG (get_NIG o).

(** ** Results: an instance of a library class *)
Definition supers (c : cls) : list cls :=
  match find (fun p => Nat.eqb (cls_id (fst p)) (cls_id c)) library with Some p => snd p | None => [] end.
Definition instance (c : cls) (fields : list (string * attr)) : ob := OInst c (supers c) (VDist fields).

Definition new_Beta (d : Beta A) := instance cBeta [("alpha", ANum (Beta_alpha d)); ("beta", ANum (Beta_beta d))].
Definition new_BetaBinomial (d : BetaBinomial A) := instance cBetaBinomial
  [("n", ANum (BetaBinomial_n d)); ("alpha", ANum (BetaBinomial_alpha d)); ("beta", ANum (BetaBinomial_beta d))].
Definition new_BetaNegativeBinomial (d : BetaNegativeBinomial A) := instance cBetaNegativeBinomial
  [("n", ANum (BetaNegativeBinomial_n d)); ("alpha", ANum (BetaNegativeBinomial_alpha d)); ("beta", ANum (BetaNegativeBinomial_beta d))].
Definition new_BetaGeometric (d : BetaGeometric A) := instance cBetaGeometric
  [("alpha", ANum (BetaGeometric_alpha d)); ("beta", ANum (BetaGeometric_beta d)); ("one_start", ABool (BetaGeometric_one_start d))].
Definition new_Gamma (d : Gamma A) := instance cGamma [("alpha", ANum (Gamma_alpha d)); ("beta", ANum (Gamma_beta d))].
Definition new_NegativeBinomial (d : NegativeBinomial A) := instance cNegativeBinomial
  [("n", ANum (NegativeBinomial_n d)); ("p", ANum (NegativeBinomial_p d))].
Definition new_Lomax (d : Lomax A) := instance cLomax [("alpha", ANum (Lomax_alpha d)); ("lam", ANum (Lomax_lam d))].
Definition new_CompoundGamma (d : CompoundGamma A) := instance cCompoundGamma
  [("alpha", ANum (CompoundGamma_alpha d)); ("beta", ANum (CompoundGamma_beta d)); ("lam", ANum (CompoundGamma_lam d))].
Definition new_Normal (d : Normal A) := instance cNormal [("mu", ANum (Normal_mu d)); ("sigma", ANum (Normal_sigma d))].
Definition new_InverseGamma (d : InverseGamma A) := instance cInverseGamma
  [("alpha", ANum (InverseGamma_alpha d)); ("beta", ANum (InverseGamma_beta d))].
Definition new_SICS (d : ScaledInverseChiSquared A) := instance cScaledInverseChiSquared
  [("nu", ANum (ScaledInverseChiSquared_nu d)); ("sigma2", ANum (ScaledInverseChiSquared_sigma2 d))].
Definition new_VariancePrior (d : VariancePrior A) := match d with VIG d => new_InverseGamma d | VSICS d => new_SICS d end.
Definition new_StudentT (d : StudentT A) := instance cStudentT
  [("mu", ANum (StudentT_mu d)); ("sigma", ANum (StudentT_sigma d)); ("nu", ANum (StudentT_nu d))].
Definition new_Pareto (d : Pareto A) := instance cPareto [("x_m", ANum (Pareto_x_m d)); ("alpha", ANum (Pareto_alpha d))].
Definition new_GammaProportional (d : GammaProportional A) := instance cGammaProportional
  [("p", ANum (GammaProportional_p d)); ("q", ANum (GammaProportional_q d));
   ("r", ANum (GammaProportional_r d)); ("s", ANum (GammaProportional_s d))].
Definition new_GammaKnownRate (d : GammaKnownRateProportional A) := instance cGammaKnownRateProportional
  [("a", ANum (GammaKnownRateProportional_a d)); ("b", ANum (GammaKnownRateProportional_b d));
   ("c", ANum (GammaKnownRateProportional_c d))].
Definition new_BetaProportional (d : BetaProportional A) := instance cBetaProportional
  [("p", ANum (BetaProportional_p d)); ("q", ANum (BetaProportional_q d)); ("k", ANum (BetaProportional_k d))].
Definition new_VonMisesConcentration (d : VonMisesKnownConcentration A) := instance cVonMisesKnownConcentration
  [("a", ANum (VonMisesKnownConcentration_a d)); ("b", ANum (VonMisesKnownConcentration_b d))].
Definition new_VonMisesDirection (d : VonMisesKnownDirectionProportional A) := instance cVonMisesKnownDirectionProportional
  [("c", ANum (VonMisesKnownDirectionProportional_c d)); ("r", ANum (VonMisesKnownDirectionProportional_r d))].

(** models.py:1287 [prior.__class__]: the class of the prior, also if it is a subclass *)
Definition opt_field (a : option A) : attr := match a with Some a => ANum a | None => ANone end.
Definition new_NormalPrior (prior : ob) (d : NormalPrior A A) : ob :=
  let fields := match d with
    | PNIG d => [("mu", ANum (NormalInverseGamma_mu d)); ("alpha", ANum (NormalInverseGamma_alpha d));
                 ("beta", ANum (NormalInverseGamma_beta d)); ("delta_inverse", opt_field (NormalInverseGamma_delta_inverse d));
                 ("nu", opt_field (NormalInverseGamma_nu d))]
    | PNG d => [("mu", ANum (NormalGamma_mu d)); ("lam", ANum (NormalGamma_lam d));
                ("alpha", ANum (NormalGamma_alpha d)); ("beta", ANum (NormalGamma_beta d))]
    end in
  match prior with OInst c sup _ => OInst c sup (VDist fields) | ONone => ONone end.

(** ** The bodies that compute: every line reads the arguments of one function *)
Definition bodies : list (string * (kws -> res ob)) := [
  (* models.py:113-165 *)
  ("binomial_beta", fun kw => let* n := num kw "n" in let* x := num kw "x" in
     let* prior := get_Beta (get "prior" kw) in Ok (new_Beta (binomial_beta n x prior)));
  (* models.py:168-220 *)
  ("binomial_beta_predictive", fun kw => let* n := num kw "n" in
     let* d := get_Beta (get "distribution" kw) in Ok (new_BetaBinomial (binomial_beta_predictive n d)));
  (* models.py:274-293 *)
  ("negative_binomial_beta", fun kw => let* r := num kw "r" in let* n := num kw "n" in let* x := num kw "x" in
     let* prior := get_Beta (get "prior" kw) in Ok (new_Beta (negative_binomial_beta r n x prior)));
  (* models.py:296-314 *)
  ("negative_binomial_beta_predictive", fun kw => let* r := num kw "r" in
     let* d := get_Beta (get "distribution" kw) in Ok (new_BetaNegativeBinomial (negative_binomial_beta_predictive r d)));
  (* models.py:317-343 *)
  ("hypergeometric_beta_binomial", fun kw => let* x := num kw "x_total" in let* n := num kw "n" in
     let* prior := get_BetaBinomial (get "prior" kw) in Ok (new_BetaBinomial (hypergeometric_beta_binomial x n prior)));
  (* models.py:346-401 *)
  ("geometric_beta", fun kw => let* x := num kw "x_total" in let* n := num kw "n" in
     let* prior := get_Beta (get "prior" kw) in let* one_start := bool_or kw "one_start" true in
     Ok (new_Beta (geometric_beta x n prior one_start)));
  (* models.py:404-427 *)
  ("geometric_beta_predictive", fun kw =>
     let* d := get_Beta (get "distribution" kw) in let* one_start := bool_or kw "one_start" true in
     Ok (new_BetaGeometric (geometric_beta_predictive d one_start)));
  (* models.py:577-594 *)
  ("poisson_gamma", fun kw => let* x := num kw "x_total" in let* n := num kw "n" in
     let* prior := get_Gamma (get "prior" kw) in Ok (new_Gamma (poisson_gamma x n prior)));
  (* models.py:597-617 *)
  ("poisson_gamma_predictive", fun kw =>
     let* d := get_Gamma (get "distribution" kw) in let* n := num_or kw "n" (nlit 1) in
     Ok (new_NegativeBinomial (poisson_gamma_predictive d n)));
  (* models.py:624-641 *)
  ("exponential_gamma", fun kw => let* x := num kw "x_total" in let* n := num kw "n" in
     let* prior := get_Gamma (get "prior" kw) in Ok (new_Gamma (exponential_gamma x n prior)));
  (* models.py:644-695 *)
  ("exponential_gamma_predictive", fun kw =>
     let* d := get_Gamma (get "distribution" kw) in Ok (new_Lomax (exponential_gamma_predictive d)));
  (* models.py:698-764 *)
  ("gamma_known_shape", fun kw => let* x := num kw "x_total" in let* n := num kw "n" in let* alpha := num kw "alpha" in
     let* prior := get_Gamma (get "prior" kw) in Ok (new_Gamma (gamma_known_shape x n alpha prior)));
  (* models.py:767-783 *)
  ("gamma_known_shape_predictive", fun kw =>
     let* d := get_Gamma (get "distribution" kw) in let* alpha := num kw "alpha" in
     Ok (new_CompoundGamma (gamma_known_shape_predictive d alpha)));
  (* models.py:786-809 *)
  ("inverse_gamma_known_rate", fun kw => let* x := num kw "reciprocal_x_total" in let* n := num kw "n" in
     let* alpha := num kw "alpha" in
     let* prior := get_Gamma (get "prior" kw) in Ok (new_Gamma (inverse_gamma_known_rate x n alpha prior)));
  (* models.py:812-879 *)
  ("normal_known_variance", fun kw => let* x := num kw "x_total" in let* n := num kw "n" in let* var := num kw "var" in
     let* prior := get_Normal (get "prior" kw) in Ok (new_Normal (normal_known_variance x n var prior)));
  (* models.py:882-945 *)
  ("normal_known_variance_predictive", fun kw => let* var := num kw "var" in
     let* d := get_Normal (get "distribution" kw) in Ok (new_Normal (normal_known_variance_predictive var d)));
  (* models.py:1103-1139 *)
  ("normal_known_mean", fun kw => let* x := num kw "x_total" in let* x2 := num kw "x2_total" in let* n := num kw "n" in
     let* mu := num kw "mu" in
     let* prior := get_VariancePrior true (get "prior" kw) in Ok (new_VariancePrior (normal_known_mean x x2 n mu prior)));
  (* models.py:1142-1215 *)
  ("normal_known_mean_predictive", fun kw => let* mu := num kw "mu" in
     let* d := get_VariancePrior false (get "distribution" kw) in Ok (new_StudentT (normal_known_mean_predictive mu d)));
  (* models.py:1238-1287 *)
  ("normal", fun kw => let* x := num kw "x_total" in let* x2 := num kw "x2_total" in let* n := num kw "n" in
     let* prior := get_NormalPrior true (get "prior" kw) in
     rmap (new_NormalPrior (get "prior" kw)) (normal x x2 n prior));
  (* models.py:1321-1345 *)
  ("normal_predictive", fun kw =>
     let* d := get_NormalPrior false (get "distribution" kw) in rmap new_StudentT (normal_predictive d));
  (* models.py:1455-1500 *)
  ("uniform_pareto", fun kw => let* x := num kw "x_max" in let* n := num kw "n" in
     let* prior := get_Pareto (get "prior" kw) in let* max_fn := fun2_or kw "max_fn" (u_max U) in
     Ok (new_Pareto (uniform_pareto max_fn x n prior)));
  (* models.py:1503-1569 *)
  ("pareto_gamma", fun kw => let* n := num kw "n" in let* lx := num kw "ln_x_total" in let* x_m := num kw "x_m" in
     let* prior := get_Gamma (get "prior" kw) in let* ln := fun1_or kw "ln" (u_ln U) in
     Ok (new_Gamma (pareto_gamma ln n lx x_m prior)));
  (* models.py:1572-1599 *)
  ("gamma", fun kw => let* x := num kw "x_total" in let* xp := num kw "x_prod" in let* n := num kw "n" in
     let* prior := get_GammaProportional (get "prior" kw) in Ok (new_GammaProportional (gamma x xp n prior)));
  (* models.py:1602-1627; beta is not used *)
  ("gamma_known_rate", fun kw => let* xp := num kw "x_prod" in let* n := num kw "n" in let be := unused kw "beta" in
     let* prior := get_GammaKnownRate (get "prior" kw) in Ok (new_GammaKnownRate (gamma_known_rate xp n be prior)));
  (* models.py:1630-1656 *)
  ("beta", fun kw => let* xp := num kw "x_prod" in let* mp := num kw "one_minus_x_prod" in let* n := num kw "n" in
     let* prior := get_BetaProportional (get "prior" kw) in Ok (new_BetaProportional (beta xp mp n prior)));
  (* models.py:1659-1691; n is not used *)
  ("von_mises_known_concentration", fun kw =>
     let* ct := num kw "cos_total" in let* st := num kw "sin_total" in let n := unused kw "n" in let* kappa := num kw "kappa" in
     let* prior := get_VonMisesConcentration (get "prior" kw) in
     let* sin := fun1_or kw "sin" (u_sin U) in let* cos := fun1_or kw "cos" (u_cos U) in
     let* arctan2 := fun2_or kw "arctan2" (u_arctan2 U) in
     Ok (new_VonMisesConcentration (von_mises_known_concentration sin cos arctan2 ct st n kappa prior)));
  (* models.py:1694-1715 *)
  ("von_mises_known_direction", fun kw => let* ct := num kw "centered_cos_total" in let* n := num kw "n" in
     let* prior := get_VonMisesDirection (get "prior" kw) in Ok (new_VonMisesDirection (von_mises_known_direction ct n prior)));
  (* models.py:2146-2167 *)
  ("weibull_inverse_gamma_known_shape", fun kw => let* n := num kw "n" in let* xb := num kw "x_beta_total" in
     let* prior := get_InverseGamma (get "prior" kw) in Ok (new_InverseGamma (weibull_inverse_gamma_known_shape n xb prior)))
].
Definition body_of (name : string) : kws -> outcome ob :=
  match find (fun p => String.eqb (fst p) name) bodies with
  | Some p => fun kw => ([], snd p kw)
  | None => fun _ => ([], Raise (NotImplementedError name))
  end.

(** The bodies that call another function: models.py:255, 271, 1009-1014,
    1083-1086, 1312-1318, 1362-1367, 2138-2143.  [1 / precision] of anything but a
    number is a TypeError in Python; here None, with which the inner body raises
    the TypeError (after the inner function has been entered, a simplification). *)
Definition cint : cls := mkCls 100 "int".
Definition cfloat : cls := mkCls 101 "float".
Definition one : ob := OInst cint [] (VNum (nlit 1)).
Definition recip (o : ob) : ob :=
  match o with OInst _ _ (VNum a) => OInst cfloat [] (VNum (ndiv (nlit 1) a)) | _ => ONone end.
Definition python_body (name : string) : kws -> outcome ob :=
  match find (fun f => String.eqb (fwd_outer f) name) (forwarders one recip) with
  | Some f => fwd_body f (body_of (fwd_inner f))
  | None => body_of name
  end.

(** A call of the function [name] of conjugate.models *)
Definition python_call (name : string) (args : list ob) (kw : kws) : outcome ob :=
  call (sig_of name) (python_body name) args kw.
End ByName.
Arguments attr : clear implicits.
Arguments pyval : clear implicits.
