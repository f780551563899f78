(** The expectations of the repository's own tests, checked against the model.

    These are tests, not proofs of properties: they compare the model with what
    the authors of /repo observed.  Tests that only check the type of a result, or
    that draw random numbers and look at quantiles, are left out. *)

From Coq Require Import ZArith Reals Lra String.
From Verif Require Import Model.Num Model.Py Model.Dists Model.ScipyDist Model.Models Model.Table Model.NdArray Model.SliceModel.
From Verif Require Import Model.MultiIndex Model.DirichletModel Model.PlotModel Model.Symbolic Model.Sampling Model.MatrixModel.
From Verif Require Model.Validate.
From Coq Require Import List.
Import ListNotations.
Open Scope R_scope.

Ltac check := unfold Normal_mul, Normal_from_mean_and_variance, Normal_from_mean_and_precision; cbv -[Rplus Rminus Rmult Rdiv Rinv Ropp IZR sqrt Rle Rlt Rmax]; repeat f_equal; try lra.
Definition arr (l : list R) : nd R := as_array l.
Definition num (x : R) : param R := PArr (scalar x).

(** ** tests/test_models.py *)

(* 118-157 test_get_binomial_beta_posterior_params, numbers *)
Example test_params : get_binomial_beta_posterior_params 1 1 10 5 = (6, 6).
Proof. check. Qed.
(* the same with objects that record operators; printed without parentheses
   these are alpha_prior + X and beta_prior + N - X *)
Example test_params_value :
  get_binomial_beta_posterior_params (EVar 0) (EVar 1) (EVar 2) (EVar 3)
  = (EAdd (EVar 0) (EVar 3), EAdd (EVar 1) (ESub (EVar 2) (EVar 3))).
Proof. reflexivity. Qed.

(* 160-185 test_handle_vectorize_values: the result has the broadcast shape and can be plotted *)
Example test_vectorized_parameters :
  rmap (map nd_shape) (run_nd (mkUfuncs ln Rmax sin cos (fun y x => y)) F_binomial_beta [scalar 100; scalar 50; arr [1; 10; 100]; scalar 1])
  = Ok [[3%nat]; []].
Proof. reflexivity. Qed.
Example test_vectorized_both :
  rmap (map (fun a => (nd_shape a, map (fun k => nd_entry a [k]) [0; 1]%nat)))
    (run_nd (mkUfuncs ln Rmax sin cos (fun y x => y)) F_binomial_beta [arr [10; 5]; arr [5; 2]; arr [1; 5]; arr [1; 5]])
  = Ok [([2%nat], [6; 7]); ([2%nat], [6; 8])].
Proof. check. Qed.

(* 188-204 test_geometric_beta_model: mean alpha / (alpha + beta) is larger for one_start *)
Example test_geometric :
  let one := geometric_beta 12 10 (mkBeta 1 1) true in
  let zero := geometric_beta 12 10 (mkBeta 1 1) false in
  Beta_alpha zero / (Beta_alpha zero + Beta_beta zero) < Beta_alpha one / (Beta_alpha one + Beta_beta one).
Proof. simpl. lra. Qed.

(* 219-242 test_multinomial_dirichlet_analysis: x = 1 is added everywhere, the shape stays *)
Example test_dirichlet_vector : exists a,
  multinomial_dirichlet (CNum 1) (CArr (arr [1; 2; 3])) = Ok (mkDirichlet (OVal (CArr a))) /\
  nd_shape a = [3%nat] /\ map (fun k => nd_entry a [k]) [0; 1; 2]%nat = [2; 3; 4].
Proof. eexists. split. reflexivity. split. reflexivity. check. Qed.
Example test_dirichlet_matrix : exists a,
  multinomial_dirichlet (CNum 1) (CArr (mkNd [2; 3]%nat (fun _ => 4))) = Ok (mkDirichlet (OVal (CArr a))) /\
  nd_shape a = [2; 3]%nat.
Proof. eexists. split; reflexivity. Qed.

(* 299-324 test_uniform_pareto_python_objects, ..._numpy_objects *)
Example test_uniform_pareto : uniform_pareto Rmax 5 5 (mkPareto 1 1) = mkPareto 5 6.
Proof. unfold uniform_pareto. simpl. unfold Rmax. destruct Rle_dec; f_equal; lra. Qed.

(* 327-343 test_pareto_gamma: alpha = 6; beta = 1 + ln 120 (5.787491742782046 as a double) *)
Example test_pareto_gamma : pareto_gamma ln 5 (ln 120) 1 (mkGamma 1 1) = mkGamma 6 (1 + ln 120).
Proof. unfold pareto_gamma. simpl. rewrite ln_1. f_equal; lra. Qed.

(* 537-543 test_bernoulli_beta, 546-550 ..._predictive *)
Example test_bernoulli : bernoulli_beta 0 (mkBeta 1 1) = mkBeta 1 2.
Proof. check. Qed.
Example test_bernoulli_predictive : bernoulli_beta_predictive (mkBeta 1 1) = mkBetaBinomial 1 1 1.
Proof. reflexivity. Qed.
(* 553-573 test_negative_binomial_beta and ..._predictive *)
Example test_negative_binomial : negative_binomial_beta 10 15 5 (mkBeta 1 1) = mkBeta 151 6.
Proof. check. Qed.
Example test_negative_binomial_predictive :
  negative_binomial_beta_predictive 10 (mkBeta 1 1) = mkBetaNegativeBinomial 10 1 1.
Proof. reflexivity. Qed.
(* 576-588 test_hypergeometric_beta_binomial (the property C17 is false of this) *)
Example test_hypergeometric : hypergeometric_beta_binomial 5 20 (mkBetaBinomial 10 1 1) = mkBetaBinomial 10 6 6.
Proof. check. Qed.

(* 591-602 test_wrong_prior_type_raises, test_wrong_distribution_type_raises *)
Import Model.Validate.
Definition gamma_object : obj unit := OInst cGamma [cContinuousPlotDistMixin; cPlotDistMixin; cSliceMixin] tt.
Definition number_object : obj unit := OInst (mkCls 1001 "int") [] tt.
Example test_wrong_prior :
  call (sig_of "bernoulli_beta") (fun _ => ([], Ok tt)) [] [("x", number_object); ("prior", gamma_object)]%string
  = ([], Raise (ValueError "Expected prior to be of type 'Beta', got 'Gamma' instead.")).
Proof. reflexivity. Qed.
Example test_wrong_distribution :
  call (sig_of "bernoulli_beta_predictive") (fun _ => ([], Ok tt)) [] [("distribution", gamma_object)]%string
  = ([], Raise (ValueError "Expected distribution to be of type 'Beta', got 'Gamma' instead.")).
Proof. reflexivity. Qed.

(* 749-778 the deprecation tests: a warning, then the result of the replacement *)
Definition nig_object : obj unit := OInst cNormalInverseGamma [] tt.
Example test_deprecation :
  alias_posterior number_object (fun o => o) (fun _ => ([], Ok 7%nat)) []
    [("x_total", number_object); ("x2_total", number_object); ("n", number_object); ("prior", nig_object)]%string
  = ([Ran "normal_normal_inverse_gamma"; Warned "This function is deprecated. Use 'normal' instead."; Ran "normal"]%string, Ok 7%nat).
Proof. reflexivity. Qed.

(** ** tests/test_distributions.py *)

(* 45-60 test_beta: max_value is 1 *)
Example test_beta : rmap o_max (construct (mkClass "Beta" Continuous MaxOne) [("alpha", num 1); ("beta", num 1)]%string) = Ok (Some (BNum 1)).
Proof. reflexivity. Qed.
(* 63-72 test_beta_uninformative, test_beta_from_success_and_failures *)
Example test_uninformative : Beta_uninformative = mkBeta 1 1.
Proof. reflexivity. Qed.
Example test_successes_failures : Beta_from_successes_and_failures 0 0 = mkBeta 1 1.
Proof. check. Qed.
(* 75-83 test_beta_mean_constructor *)
Example test_mean_constructor : forall alpha, In alpha [1; 10; 100] -> forall mean, In mean [1 / 40; 1 / 2; 3 / 4] ->
  let d := Beta_from_mean mean alpha in
  0 < get_beta_param_from_mean_and_alpha mean alpha /\ Beta_beta d = get_beta_param_from_mean_and_alpha mean alpha /\
  Beta_alpha d / (Beta_alpha d + Beta_beta d) = mean.
Proof.
  intros alpha Ha mean Hm. simpl in Ha, Hm. unfold get_beta_param_from_mean_and_alpha. simpl.
  destruct Ha as [<-|[<-|[<-|[]]]]; destruct Hm as [<-|[<-|[<-|[]]]]; repeat split; lra.
Qed.
(* 86-113 test_beta_negative_binomial_scipy_(not_)supported *)
Example test_scipy_not_supported :
  BetaNegativeBinomial_dist [1; 11; 4]%nat (mkBetaNegativeBinomial 10 1 1)
  = Raise (NotImplementedError "BetaNegativeBinomial.dist requires scipy >= 1.12.0").
Proof. reflexivity. Qed.
Example test_scipy_supported :
  BetaNegativeBinomial_dist [1; 12; 0]%nat (mkBetaNegativeBinomial 10 1 1) = Ok (S_betanbinom 10 1 1).
Proof. reflexivity. Qed.

(* 116-132 test_slicing_single: beta[0] *)
Definition entry_of (p : string * param R) : string * (list nat * list R) :=
  (fst p, match snd p with
          | PArr a => (nd_shape a, match nd_shape a with [] => [nd_entry a []] | d :: _ => map (fun k => nd_entry a [k]) (seq 0 d) end)
          | _ => ([], []) end).
Example test_slicing_single :
  map entry_of (dist_getitem 0 [("alpha", PArr (arr [1; 10; 100])); ("beta", num 1)]%string (KInt 0))
  = [("alpha", ([], [1])); ("beta", ([], [1]))]%string.
Proof. reflexivity. Qed.
(* 135-158 test_slicing_array: beta[:2] *)
Example test_slicing_array :
  map entry_of (dist_getitem 0 [("alpha", PArr (arr [1; 10; 100])); ("beta", num 1)]%string (KSlice None (Some 2%Z) 1))
  = [("alpha", ([2%nat], [1; 10])); ("beta", ([], [1]))]%string.
Proof. reflexivity. Qed.

(* 161-206 test_distribution: not plottable before the maximum is set; 2 * dist *)
Definition poisson1 := New (mkClass "Poisson" Discrete NoBounds) [("lam", num 1)]%string.
Example test_unset : snd (step (run_history [] [poisson1]) (Plot 0)) = Failed (ValueError "Set the max value before plotting.").
Proof. reflexivity. Qed.
Example test_set : snd (step (run_history [] [poisson1; SetMax 0 10]) (Plot 0)) = Grid (arange 0 (10 + 1)).
Proof. reflexivity. Qed.
Example test_bounds : run_history [] [poisson1; SetMax 0 10; Plot 0; SetBounds 0 (-20) 20]
  = [mkObject (mkClass "Poisson" Discrete NoBounds) [("lam", num 1)]%string (Some (BNum (-20))) (Some (BNum 20))].
Proof. reflexivity. Qed.
Example test_mul : (Poisson_mul (mkPoisson 1) 2, Gamma_mul (mkGamma 1 1) 2, NegativeBinomial_mul (mkNegativeBinomial 1 1) 2,
  Exponential_mul (mkExponential 1) 2) = (mkPoisson 2, mkGamma 2 1, mkNegativeBinomial 2 1, mkGamma 2 1).
Proof. check. Qed.

(* 226-238 test_vectorized, 410-417 test_dirichlet_rvs *)
Example test_vectorized : forall s : list nat, In s [[2; 3]; [3; 4]]%nat ->
  Dirichlet_dist (mkDirichlet (OVal (CArr (mkNd s (fun _ => 1))))) = Ok (Vectorized (mkNd s (fun _ => 1))).
Proof. intros s [<-|[<-|[]]]; reflexivity. Qed.

(* 241-257 test_slice_multivariate_normal *)
Definition cov2 : nd R := mkNd [2; 2]%nat (fun i => match i with [0%nat; 0%nat] => 1 | [1%nat; 1%nat] => 3 | _ => 0 end).
Example test_mvn : MultivariateNormal_getitem (arr [0; 1]) cov2 (PyInt 0) = Ok (Univariate_normal (mkNormal 0 (sqrt 1))).
Proof. reflexivity. Qed.
Example test_mvn_many : exists m c, MultivariateNormal_getitem (arr [0; 1]) cov2 (Many (KList [1; 0]%Z)) = Ok (Multi_normal m c) /\
  map (fun k => nd_entry m [k]) [0; 1]%nat = [1; 0] /\
  map (fun k => nd_entry c k) [[0; 0]; [0; 1]; [1; 0]; [1; 1]]%nat = [3; 0; 0; 1].
Proof. do 2 eexists. split. reflexivity. split; reflexivity. Qed.
(* 260-278 test_slice_multivariate_t: the test expects the scale 1 = cov[0, 0] (C42 says what it should be) *)
Example test_mvt : MultivariateStudentT_getitem (arr [0; 1]) cov2 2 (PyInt 0) = Ok (Univariate_t (mkStudentT 0 1 2)).
Proof. reflexivity. Qed.

(* 281-322 test_normal_inverse_wishart, test_normal_wishart: shapes for size=1 *)
Definition zero_entries : request (nd R) -> unit -> list nat -> R := fun _ _ _ => 0.
Definition no_advance : request (nd R) -> unit -> unit := fun _ g => g.
Definition w0 : @world R unit := mkWorld tt tt [].
Definition eye2 : nd R := mkNd [2; 2]%nat (fun i => match i with [r; c] => if Nat.eqb r c then 1 else 0 | _ => 0 end).
Definition shapes {B} (f : B -> list (list nat)) (r : res B * @world R unit) : res (list (list nat)) := rmap f (fst r).
Definition mean_and_variance (r : nd R * option (nd R)) : list (list nat) :=
  nd_shape (fst r) :: match snd r with Some v => [nd_shape v] | None => [] end.
Definition niw2 := mkNormalInverseWishart (arr [0; 1]) (scalar 1) (scalar 2) eye2.
Example test_niw :
  shapes (fun v => [nd_shape v]) (NormalInverseWishart_sample_variance unit zero_entries no_advance (fun _ => tt) niw2 1 RS_None w0) = Ok [[1; 2; 2]]%nat /\
  shapes mean_and_variance (NormalInverseWishart_sample_mean unit zero_entries no_advance (fun _ => tt) niw2 1 false RS_None w0) = Ok [[1; 2]]%nat /\
  shapes mean_and_variance (NormalInverseWishart_sample_mean unit zero_entries no_advance (fun _ => tt) niw2 1 true RS_None w0) = Ok [[1; 2]; [1; 2; 2]]%nat.
Proof. repeat split. Qed.
Definition nw2 := mkNormalWishart (arr [0; 1]) (scalar 1) eye2 (scalar 2).
Example test_nw :
  shapes (fun v => [nd_shape v]) (NormalWishart_sample_variance unit zero_entries no_advance (fun _ => tt) (fun a => Ok a) nw2 1 RS_None w0) = Ok [[1; 2; 2]]%nat /\
  shapes mean_and_variance (NormalWishart_sample_mean unit zero_entries no_advance (fun _ => tt) (fun a => Ok a) nw2 1 true RS_None w0) = Ok [[1; 2]; [1; 2; 2]]%nat.
Proof. repeat split. Qed.

(* 325-350 test_normal_inverse_gamma: 1 to 3 features, 1, 2 and 10 samples *)
Definition nig_n (n : nat) : NormalInverseGamma (nd R) (nd R) (nd R) :=
  mkNormalInverseGamma (mkNd [n] (fun _ => 0)) (scalar 1) (scalar 1) (Some (mkNd [n; n] (fun _ => 0))) None.
Example test_nig : forall n k, In n [1; 2; 3]%nat -> In k [1; 2; 10]%nat ->
  shapes (fun v => [nd_shape v]) (NormalInverseGamma_sample_variance unit zero_entries no_advance (fun _ => tt) (nig_n n) k RS_None w0) = Ok [[k]] /\
  shapes mean_and_variance (NormalInverseGamma_sample_mean unit zero_entries no_advance (fun _ => tt) (nig_n n) k false RS_None w0)
  = Ok [if Nat.eqb n 1 then [k] else [k; n]].
Proof. intros n k [<-|[<-|[<-|[]]]] [<-|[<-|[<-|[]]]]; repeat split. Qed.

(* 353-371 test_compound_gamma (which always uses scalars) *)
Example test_compound_gamma : forall size, In size [[10]; [10; 3]; [10; 2; 3]]%nat ->
  shapes (fun r => [nd_shape r]) (compound_gamma_rvs unit zero_entries no_advance (fun _ => tt) (scalar 1) (scalar 1) (scalar 1) (Sz_tuple size) RS_None w0) = Ok [size].
Proof. intros size [<-|[<-|[<-|[]]]]; reflexivity. Qed.
(* 479-491 test_beta_geometric_random_samples *)
Example test_beta_geometric : forall one_start,
  map (fun size => shapes (fun r => [nd_shape r]) (beta_geometric_rvs unit zero_entries no_advance (fun _ => tt) (scalar 1) (scalar 1) one_start size RS_None w0))
    [Sz_None; Sz_int 1; Sz_int 3] = [Ok [[]]; Ok [[1]]; Ok [[3]]]%nat.
Proof. intros [|]; reflexivity. Qed.

(* 374-379 test_binomial_max_value *)
Example test_binomial_max_value :
  rmap o_max (construct (mkClass "Binomial" Discrete (MaxOf "n")) [("n", PArr (arr [10; 20; 15])); ("p", num (1 / 2))]%string)
  = Ok (Some (BNum 20)).
Proof.
  cbv -[Rplus Rminus Rmult Rdiv Rinv Ropp IZR Rmax]. rewrite (Rmax_right 10 20) by lra. rewrite Rmax_left by lra. reflexivity.
Qed.

(* 425-438 test_normal_gamma *)
Example test_normal_gamma : NormalGamma_gamma (mkNormalGamma 0 1 1 1) = mkGamma 1 1 /\
  shapes mean_and_variance (NormalGamma_sample_mean unit zero_entries no_advance (fun _ => tt)
    (mkNormalGamma (scalar 0) (scalar 1) (scalar 1) (scalar 1)) 10 false RS_None w0) = Ok [[10%nat]] /\
  shapes mean_and_variance (NormalGamma_sample_mean unit zero_entries no_advance (fun _ => tt)
    (mkNormalGamma (scalar 0) (scalar 1) (scalar 1) (scalar 1)) 1 true RS_None w0) = Ok [[1%nat]; [1%nat]].
Proof. repeat split. Qed.

(* 441-447 test_scaled_inverse_chi_squared_round_trip *)
Example test_round_trip :
  ScaledInverseChiSquared_to_inverse_gamma (ScaledInverseChiSquared_from_inverse_gamma (mkInverseGamma 1 1)) = mkInverseGamma 1 1.
Proof. check. Qed.
(* 450-454 test_combining_poisson, 457-461 test_scaling_of_normal *)
Example test_add : Poisson_add (mkPoisson 1) (mkPoisson 2) = mkPoisson 3.
Proof. check. Qed.
Lemma sqrt4 : sqrt 4 = 2. Proof. replace 4 with (2 * 2) by lra. apply sqrt_square. lra. Qed.
Example test_normal_mul : Normal_mul (mkNormal 0 1) 4 = mkNormal 0 2.
Proof. unfold Normal_mul. simpl. f_equal; try lra. match goal with |- sqrt ?x = _ => replace x with 4 by lra end. exact sqrt4. Qed.
(* 464-469 test_normal_alternative_constructors *)
Example test_normal_constructors : Normal_uninformative 1 = mkNormal 0 1 /\
  Normal_from_mean_and_variance 0 4 = mkNormal 0 2 /\ Normal_from_mean_and_precision 0 (1 / 4) = mkNormal 0 2.
Proof.
  split. reflexivity. split.
  - unfold Normal_from_mean_and_variance. simpl. now rewrite sqrt4.
  - unfold Normal_from_mean_and_precision. simpl. f_equal.
    replace (1 / 4) with ((1 / 2) * (1 / 2)) by lra. rewrite sqrt_square by lra. lra.
Qed.

(* 494-505 test_geometric_slice *)
Example test_geometric_slice : forall one_start,
  dist_getitem 0 [("p", PArr (arr [1 / 4; 1 / 2; 3 / 4])); ("one_start", PFlag one_start)]%string (KInt 0)
  = [("p", PArr (mkNd [] (fun i => nd_entry (arr [1 / 4; 1 / 2; 3 / 4]) (0%nat :: i)))); ("one_start", PFlag one_start)]%string.
Proof. reflexivity. Qed.

(** ** tests/test_plot.py: test_resolve_label *)
Example test_resolve_label :
  resolve_label (LStr "label") [3]%nat = Ok (PlotModel.Single (LStr "label")) /\
  resolve_label LNone [3]%nat = Ok (PlotModel.Single LNone) /\
  resolve_label (LIter ["label1"; "label2"]) [2]%nat = Ok (PlotModel.Single (LIter ["label1"; "label2"])) /\
  resolve_label (LStr "label") [3; 2]%nat = Ok (Each [Some "label 1"; Some "label 2"]) /\
  resolve_label (LStr "label") [2; 3]%nat = Ok (Each [Some "label 1"; Some "label 2"; Some "label 3"]) /\
  resolve_label (LCallable (fun i => ("another " ++ str_of_nat (i + 1) ++ " label")%string)) [2; 3]%nat
    = Ok (Each [Some "another 1 label"; Some "another 2 label"; Some "another 3 label"]).
Proof. repeat split. Qed.
