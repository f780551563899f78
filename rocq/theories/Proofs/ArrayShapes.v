(** Shapes of the results of the matrix functions. *)

From Coq Require Import ZArith Bool List String Lia.
From Verif Require Import Model.Num Model.Py Model.Dists Model.Models Model.Table Model.NdArray Model.MatrixModel.
From Verif Require Import Spec.ArrayShapes.
Import ListNotations.
Local Open Scope num_scope.
#[local] Existing Instance NumNd.

Section Shapes.
Context {A : Type} {NA : Num A}.
Implicit Types (r : res (nd A)).

Definition has r (s : list nat) : Prop := exists a, r = Ok a /\ nd_shape a = s.

Lemma has_ok (a : nd A) s : nd_shape a = s -> has (Ok a) s.
Proof. intros H. now exists a. Qed.
Lemma has_lift2 f r r' s s' u : has r s -> has r' s' -> broadcast_shapes s s' = Some u -> has (lift2 f r r') u.
Proof.
  intros (a & -> & <-) (b & -> & <-) E. unfold lift2. cbn [bind]. unfold map2. rewrite E. eexists. split; reflexivity.
Qed.
Lemma fails_lift2 f r r' s s' : has r s -> has r' s' -> broadcast_shapes s s' = None -> fails (lift2 f r r').
Proof.
  intros (a & -> & <-) (b & -> & <-) E. unfold lift2. cbn [bind]. unfold map2. rewrite E. eexists. reflexivity.
Qed.
Lemma has_22 r r' m k n : has r [m; k] -> has r' [k; n] -> has (r @@ r') [m; n].
Proof.
  intros (a & -> & Sa) (b & -> & Sb). unfold matmul. cbn [bind]. unfold matmul_nd. rewrite Sa, Sb. cbn [rev app].
  rewrite Nat.eqb_refl. eexists. split; reflexivity.
Qed.
Lemma has_21 r r' m k : has r [m; k] -> has r' [k] -> has (r @@ r') [m].
Proof.
  intros (a & -> & Sa) (b & -> & Sb). unfold matmul. cbn [bind]. unfold matmul_nd. rewrite Sa, Sb. cbn [rev app].
  rewrite Nat.eqb_refl. eexists. split; reflexivity.
Qed.
Lemma has_12 r r' k n : has r [k] -> has r' [k; n] -> has (r @@ r') [n].
Proof.
  intros (a & -> & Sa) (b & -> & Sb). unfold matmul. cbn [bind]. unfold matmul_nd. rewrite Sa, Sb. cbn [rev app].
  rewrite Nat.eqb_refl. eexists. split; reflexivity.
Qed.
Lemma has_11 r r' k : has r [k] -> has r' [k] -> has (r @@ r') [].
Proof.
  intros (a & -> & Sa) (b & -> & Sb). unfold matmul. cbn [bind]. unfold matmul_nd. rewrite Sa, Sb. cbn [rev app].
  rewrite Nat.eqb_refl. eexists. split; reflexivity.
Qed.
Lemma fails_matmul r r' s s' : has r s -> has r' s' ->
  match rev s, rev s' with
  | k :: _, [k'] | k :: _, _ :: k' :: _ => k <> k'
  | _, _ => True
  end -> fails (r @@ r').
Proof.
  intros (a & -> & <-) (b & -> & <-). unfold matmul. cbn [bind]. unfold matmul_nd.
  destruct (rev (nd_shape a)) as [|k [|m t]]; [intros _; eexists; reflexivity| |];
    destruct (rev (nd_shape b)) as [|k' [|n t']]; try (intros _; eexists; reflexivity);
    intros N; apply Nat.eqb_neq in N; rewrite N; eexists; reflexivity.
Qed.
Lemma has_T r s : has r s -> has (transpose r) (rev s).
Proof. intros (a & -> & <-). eexists. split; reflexivity. Qed.
Lemma has_T2 r m n : has r [m; n] -> has (transpose r) [n; m].
Proof. exact (has_T r [m; n]). Qed.
Lemma has_T1 r n : has r [n] -> has (transpose r) [n].
Proof. exact (has_T r [n]). Qed.
Lemma has_int n : has (int n) [].
Proof. now apply has_ok. Qed.

Lemma fails_bind {B C} (r : res B) (f : B -> res C) : fails r -> fails (bind r f).
Proof. intros [e ->]. now exists e. Qed.

(** Broadcasting of shapes of at most two dimensions *)
Definition dim (a b : nat) : option nat :=
  if Nat.eqb a b then Some a else if Nat.eqb a 1 then Some b else if Nat.eqb b 1 then Some a else None.
Lemma dim_refl a : dim a a = Some a.
Proof. unfold dim. now rewrite Nat.eqb_refl. Qed.
Lemma dim_1l a : dim 1 a = Some a.
Proof. unfold dim. destruct (Nat.eqb_spec 1 a) as [<-|]; reflexivity. Qed.
Lemma dim_1r a : dim a 1 = Some a.
Proof. unfold dim. destruct (Nat.eqb_spec a 1) as [->|]; reflexivity. Qed.
Lemma dim_none a b : a <> b -> a <> 1 -> b <> 1 -> dim a b = None.
Proof. intros. unfold dim. now rewrite !(proj2 (Nat.eqb_neq _ _)) by assumption. Qed.

Lemma bs_0 s : broadcast_shapes [] s = Some s.
Proof. unfold broadcast_shapes. simpl. now rewrite rev_involutive. Qed.
Lemma bs_0r s : broadcast_shapes s [] = Some s.
Proof. unfold broadcast_shapes. simpl. destruct (rev s) eqn:E; simpl; now rewrite <- (rev_involutive s), E. Qed.
Lemma bs_11 a b : broadcast_shapes [a] [b] = option_map (fun c => [c]) (dim a b).
Proof. unfold broadcast_shapes, dim. simpl. now destruct (a =? b), (a =? 1), (b =? 1). Qed.
Lemma bs_22 a b c d : broadcast_shapes [a; b] [c; d] =
  match dim a c, dim b d with Some x, Some y => Some [x; y] | _, _ => None end.
Proof.
  unfold broadcast_shapes, dim. cbn [rev app bc].
  destruct (a =? c), (a =? 1), (c =? 1), (b =? d), (b =? 1), (d =? 1); reflexivity.
Qed.
Lemma bs_12 b c d : broadcast_shapes [b] [c; d] = option_map (fun y => [c; y]) (dim b d).
Proof. unfold broadcast_shapes, dim. simpl. now destruct (b =? d), (b =? 1), (d =? 1). Qed.
Lemma bs_21 a b d : broadcast_shapes [a; b] [d] = option_map (fun y => [a; y]) (dim b d).
Proof. unfold broadcast_shapes, dim. simpl. now destruct (b =? d), (b =? 1), (d =? 1). Qed.
End Shapes.

Ltac dims := rewrite ?bs_0, ?bs_0r, ?bs_11, ?bs_22, ?bs_12, ?bs_21, ?dim_refl, ?dim_1l, ?dim_1r; reflexivity.
Ltac shp :=
  match goal with
  | |- has (Ok _) _ => apply has_ok; (eassumption || (cbn [nd_shape NormalInverseGamma_mu NormalInverseGamma_alpha
        NormalInverseGamma_beta MultivariateNormal_mu MultivariateNormal_cov]; eassumption) || reflexivity)
  | |- has (int _) _ => apply has_int
  | |- has nhalf _ => apply has_ok; reflexivity
  | |- has (nlit _) _ => apply has_ok; reflexivity
  | |- has (transpose _) _ => first [eapply has_T2; shp | eapply has_T1; shp]
  | |- has (nadd _ _) _ => eapply has_lift2; [shp|shp|dims]
  | |- has (nsub _ _) _ => eapply has_lift2; [shp|shp|dims]
  | |- has (nmul _ _) _ => eapply has_lift2; [shp|shp|dims]
  | |- has (ndiv _ _) _ => eapply has_lift2; [shp|shp|dims]
  | |- has (_ @@ _) _ =>
      first [eapply has_22; [shp|shp] | eapply has_21; [shp|shp] | eapply has_12; [shp|shp] | eapply has_11; [shp|shp]]
  end.
(** evaluate [r], whose shape is computed, in [let* x := r in _] *)
Ltac eval_bind a S :=
  let go r := (let E := fresh in eassert (has r _) as (a & E & S); [shp|]; rewrite E; cbn [bind]; clear E; cbn [rev app] in S) in
  match goal with
  | |- returns_unless _ (bind ?r _) _ => go r
  | |- fails (bind ?r _) => go r
  end.

Section Functions.
Context {A : Type} {NA : Num A}.
Implicit Types (X y mu Di alpha beta : nd A) (inv : nd A -> res (nd A)).

(** Case analysis on a call of [inv] *)
Ltac call_inv inv K b S :=
  match goal with |- context [inv ?a] =>
    let E := fresh in destruct (inv a) as [b|] eqn:E; cbn [bind];
      [pose proof (K _ _ E) as S; clear E | try (right; eexists; eexists; split; [exact E|reflexivity])]
  end.

Lemma regression_shapes inv n N cy cm X y mu Di alpha beta : keeps_shape inv ->
  nd_shape X = [N; n] -> nd_shape y = vec_shape cy N -> nd_shape mu = vec_shape cm n -> nd_shape Di = [n; n] ->
  nd_shape alpha = [] -> nd_shape beta = [] ->
  returns_unless inv (linear_regression X y (mkNormalInverseGamma mu alpha beta (Some Di) None) inv) (fun post =>
    nd_shape (NormalInverseGamma_mu post) = (if Bool.eqb cy cm then vec_shape cm n else [n; n]) /\
    nd_shape (NormalInverseGamma_alpha post) = [] /\
    nd_shape (NormalInverseGamma_beta post) =
      (if Bool.eqb cy cm then if cm then [1; 1] else [] else [n; n]) /\
    exists D, NormalInverseGamma_delta_inverse post = Some D /\ nd_shape D = [n; n]).
Proof.
  intros K SX Sy Sm SD Sa Sb. unfold linear_regression. unfold shape0. rewrite SX. cbn [bind].
  cbn [inv_arg NormalInverseGamma_delta_inverse NormalInverseGamma_mu NormalInverseGamma_alpha NormalInverseGamma_beta].
  call_inv inv K delta Sd. rewrite SD in Sd.
  eval_bind dp Sp. call_inv inv K dpi Si. rewrite Sp in Si.
  destruct cy, cm; cbn [vec_shape Bool.eqb] in *;
    eval_bind mp Smp; eval_bind ap Sap; eval_bind bp Sbp;
    left; eexists; (split; [reflexivity|]); cbn; eauto 8.
Qed.

Lemma fails_lift2_l f (p q : res (nd A)) : fails p -> fails (lift2 f p q).
Proof. intros [e ->]. now exists e. Qed.
Lemma fails_lift2_r f (p q : res (nd A)) : fails q -> fails (lift2 f p q).
Proof. intros [e ->]. destruct p; [now exists e | eexists; reflexivity]. Qed.
Lemma fails_matmul_l (p q : res (nd A)) : fails p -> fails (p @@ q).
Proof. intros [e ->]. now exists e. Qed.
Lemma fails_matmul_r (p q : res (nd A)) : fails q -> fails (p @@ q).
Proof. intros [e ->]. destruct p; [now exists e | eexists; reflexivity]. Qed.
(** look at the next bound expression only as far as whether it returns *)
Ltac step a :=
  match goal with |- fails (bind ?r _) => let E := fresh "E" a in destruct r as [a|] eqn:E; cbn [bind]; [|eexists; reflexivity] end.

Lemma regression_mismatch inv N N' n m m' X y mu Di alpha beta : keeps_shape inv ->
  nd_shape X = [N; n] -> nd_shape y = [N'] -> nd_shape mu = [m'] -> nd_shape Di = [m; m] ->
  N' <> N \/ m' <> m \/ (m <> n /\ m <> 1 /\ n <> 1) ->
  fails (linear_regression X y (mkNormalInverseGamma mu alpha beta (Some Di) None) inv).
Proof.
  intros K SX Sy Sm SD H. unfold linear_regression. step rows. unfold shape0 in Erows. rewrite SX in Erows.
  cbn [inv_arg NormalInverseGamma_delta_inverse NormalInverseGamma_mu NormalInverseGamma_alpha NormalInverseGamma_beta].
  step delta. apply K in Edelta. rewrite SD in Edelta.
  destruct H as [H|[H|(H1 & H2 & H3)]].
  - step dp. step dpi. apply fails_bind, fails_matmul_r, fails_lift2_r. eapply fails_matmul; [shp|shp|]. cbn. congruence.
  - step dp. step dpi. apply fails_bind, fails_matmul_r, fails_lift2_l. eapply fails_matmul; [shp|shp|]. cbn. congruence.
  - apply fails_bind. eapply fails_lift2; [shp|shp|]. rewrite bs_22, dim_none; congruence.
Qed.

(** a prior for one coefficient and [n] covariates; a prior for [m] and one covariate *)
Lemma regression_accepted inv N n m X y mu Di alpha beta : keeps_shape inv ->
  nd_shape X = [N; n] -> nd_shape y = [N] -> nd_shape mu = [m] -> nd_shape Di = [m; m] ->
  nd_shape alpha = [] -> nd_shape beta = [] -> m = 1 \/ n = 1 ->
  returns_unless inv (linear_regression X y (mkNormalInverseGamma mu alpha beta (Some Di) None) inv) (fun post =>
    nd_shape (NormalInverseGamma_mu post) = [if Nat.eqb m 1 then n else m] /\
    nd_shape (NormalInverseGamma_alpha post) = [] /\ nd_shape (NormalInverseGamma_beta post) = []).
Proof.
  intros K SX Sy Sm SD Sa Sb H. unfold linear_regression. unfold shape0. rewrite SX. cbn [bind].
  cbn [inv_arg NormalInverseGamma_delta_inverse NormalInverseGamma_mu NormalInverseGamma_alpha NormalInverseGamma_beta].
  call_inv inv K delta Sd. rewrite SD in Sd.
  destruct H as [-> | ->].
  - eval_bind dp Sp. call_inv inv K dpi Si. rewrite Sp in Si.
    eval_bind mp Smp; eval_bind ap Sap; eval_bind bp Sbp; left; eexists; (split; [reflexivity|]); cbn; auto.
  - assert (E : (if Nat.eqb m 1 then 1 else m) = m) by (destruct (Nat.eqb_spec m 1); auto).
    rewrite E. eval_bind dp Sp. call_inv inv K dpi Si. rewrite Sp in Si.
    eval_bind mp Smp; eval_bind ap Sap; eval_bind bp Sbp; left; eexists; (split; [reflexivity|]); cbn; auto.
Qed.

(** one covariate stored flat: the posterior is computed, no prediction can be *)
Lemma regression_flat inv N X y mu Di alpha beta : keeps_shape inv ->
  nd_shape X = [N] -> nd_shape y = [N] -> nd_shape mu = [1] -> nd_shape Di = [1; 1] ->
  nd_shape alpha = [] -> nd_shape beta = [] ->
  returns_unless inv (linear_regression X y (mkNormalInverseGamma mu alpha beta (Some Di) None) inv) (fun post =>
    nd_shape (NormalInverseGamma_mu post) = [1] /\
    forall eye k (X' : nd A), k <> 1 -> nd_shape X' = [k] -> fails (linear_regression_predictive post X' eye)).
Proof.
  intros K SX Sy Sm SD Sa Sb. unfold linear_regression. unfold shape0. rewrite SX. cbn [bind].
  cbn [inv_arg NormalInverseGamma_delta_inverse NormalInverseGamma_mu NormalInverseGamma_alpha NormalInverseGamma_beta].
  call_inv inv K delta Sd. rewrite SD in Sd. eval_bind dp Sp. call_inv inv K dpi Si. rewrite Sp in Si.
  eval_bind mp Smp; eval_bind ap Sap; eval_bind bp Sbp; left; eexists; (split; [reflexivity|]).
  split; [assumption|]. intros eye k X' Hk SX'. unfold linear_regression_predictive. apply fails_bind.
  eapply fails_matmul; [shp|apply has_ok; exact Smp|]. cbn. exact Hk.
Qed.

(** Mean vector, known covariance or precision *)
Lemma known_precision_shapes inv p cx cm num x_bar P mu P0 : keeps_shape inv ->
  nd_shape num = [] -> nd_shape x_bar = vec_shape cx p -> nd_shape P = [p; p] ->
  nd_shape mu = vec_shape cm p -> nd_shape P0 = [p; p] ->
  returns_unless inv (_multivariate_normal_known_precision num mu P0 x_bar P inv) (fun r =>
    nd_shape (fst r) = (if Bool.eqb cx cm then vec_shape cm p else [p; p]) /\ nd_shape (snd r) = [p; p]).
Proof.
  intros K Sn Sx SP Sm S0. unfold _multivariate_normal_known_precision.
  eassert (has (Ok P0 + Ok num * Ok P) _) as (pp & Ep & Sp) by shp. rewrite Ep. cbn [bind].
  destruct (inv pp) as [c|e] eqn:Ec; [|right; exists pp, e; split; [exact Ec|reflexivity]].
  apply K in Ec. rewrite Sp in Ec.
  destruct cx, cm; cbn [vec_shape Bool.eqb] in *;
    eval_bind mp Smp; left; eexists; (split; [reflexivity|]); cbn; auto.
Qed.
Lemma unless_bind {B C} inv (r : res B) (f : B -> res C) P Q : returns_unless inv r P ->
  (forall b, P b -> returns_unless inv (f b) Q) -> returns_unless inv (bind r f) Q.
Proof.
  intros [(b & -> & Pb)|(a & e & E & ->)] H; [now apply H|]. right. now exists a, e.
Qed.
Lemma known_covariance_post_shapes inv p cx cm num x_bar cov mu S : keeps_shape inv ->
  nd_shape num = [] -> nd_shape x_bar = vec_shape cx p -> nd_shape cov = [p; p] ->
  nd_shape mu = vec_shape cm p -> nd_shape S = [p; p] ->
  returns_unless inv (multivariate_normal_known_covariance inv num x_bar cov (mkMultivariateNormal mu S) inv) (fun post =>
    nd_shape (MultivariateNormal_mu post) = (if Bool.eqb cx cm then vec_shape cm p else [p; p]) /\
    nd_shape (MultivariateNormal_cov post) = [p; p]).
Proof.
  intros K Sn Sx SC Sm SS. unfold multivariate_normal_known_covariance. cbn [MultivariateNormal_mu MultivariateNormal_cov].
  call_inv inv K P0 S0. call_inv inv K P SP. rewrite SS in S0. rewrite SC in SP.
  eapply unless_bind; [apply (known_precision_shapes inv p cx cm); assumption|].
  intros [mp pp] [H1 H2]. cbn [fst snd] in *. call_inv inv K cp Sc. left. eexists. split; [reflexivity|]. cbn. split; congruence.
Qed.
Lemma known_precision_post_shapes inv p cx cm num x_bar P mu S : keeps_shape inv ->
  nd_shape num = [] -> nd_shape x_bar = vec_shape cx p -> nd_shape P = [p; p] ->
  nd_shape mu = vec_shape cm p -> nd_shape S = [p; p] ->
  returns_unless inv (multivariate_normal_known_precision inv num x_bar P (mkMultivariateNormal mu S) inv) (fun post =>
    nd_shape (MultivariateNormal_mu post) = (if Bool.eqb cx cm then vec_shape cm p else [p; p]) /\
    nd_shape (MultivariateNormal_cov post) = [p; p]).
Proof.
  intros K Sn Sx SP Sm SS. unfold multivariate_normal_known_precision. cbn [MultivariateNormal_mu MultivariateNormal_cov].
  call_inv inv K P0 S0. rewrite SS in S0.
  eapply unless_bind; [apply (known_precision_shapes inv p cx cm); assumption|].
  intros [mp pp] [H1 H2]. cbn [fst snd] in *. call_inv inv K cp Sc. left. eexists. split; [reflexivity|]. cbn. split; congruence.
Qed.

(** Known mean, given as a column *)
Lemma known_mean_column N p X mu nu psi : nd_shape X = [N; p] -> nd_shape mu = [p; 1] ->
  nd_shape nu = [] -> nd_shape psi = [p; p] ->
  (N = p \/ N = 1 \/ p = 1 -> exists post, multivariate_normal_known_mean X mu (mkInverseWishart nu psi) = Ok post /\
     nd_shape (InverseWishart_psi post) = [p; p]) /\
  (N <> p -> N <> 1 -> p <> 1 -> fails (multivariate_normal_known_mean X mu (mkInverseWishart nu psi))).
Proof.
  intros SX Sm Sn SP. unfold multivariate_normal_known_mean. cbn [InverseWishart_nu InverseWishart_psi]. unfold shape0.
  rewrite SX. cbn [bind].
  assert (has (Ok nu + int N) []) as (nup & -> & Snu) by shp. cbn [bind]. split.
  - intros H. assert (D : exists M, dim N p = Some M).
    { destruct H as [-> | [-> | ->]]; [rewrite dim_refl|rewrite dim_1l|rewrite dim_1r]; eauto. }
    destruct D as [M D].
    assert (E : has (Ok X - Ok mu) [M; p]).
    { eapply has_lift2; [shp|shp|]. now rewrite bs_22, D, dim_1r. }
    assert (has (Ok psi + (transpose (Ok X - Ok mu) @@ (Ok X - Ok mu))) [p; p]) as (psip & -> & Sp).
    { eapply has_lift2; [shp|eapply has_22; [eapply has_T2; exact E|exact E]|dims]. }
    cbn [bind]. eexists. split; [reflexivity|exact Sp].
  - intros H1 H2 H3. apply fails_bind, fails_lift2_r, fails_matmul_r.
    eapply fails_lift2; [shp|shp|]. now rewrite bs_22, dim_none.
Qed.

(** One observation, given as a flat vector *)
Lemma at_flat p (a : nd A) t : nd_shape a = [p] -> t < p -> at_index [t] a = nd_entry a [t].
Proof.
  intros S H. unfold at_index. rewrite S. cbn. destruct (Nat.eqb_spec p 1) as [->|_]; [|reflexivity].
  now replace t with 0 by lia.
Qed.
Lemma at_square p (a : nd A) i j : nd_shape a = [p; p] -> i < p -> j < p -> at_index [i; j] a = nd_entry a [i; j].
Proof.
  intros S H1 H2. unfold at_index. rewrite S. cbn. destruct (Nat.eqb_spec p 1) as [->|_]; [|reflexivity].
  now replace i with 0 by lia; replace j with 0 by lia.
Qed.
Lemma at_scalar i (a : nd A) : nd_shape a = [] -> at_index i a = nd_entry a [].
Proof. intros S. unfold at_index. rewrite S. cbn. now destruct (rev i). Qed.
Lemma nsum_ext n (f g : nat -> A) : (forall t, t < n -> f t = g t) -> nsum n f = nsum n g.
Proof.
  intros H. unfold nsum. f_equal. apply map_ext_in. intros t Ht. apply in_seq in Ht. apply H. lia.
Qed.

Lemma known_mean_flat p X mu nu psi : nd_shape X = [p] -> nd_shape mu = [p] -> nd_shape nu = [] -> nd_shape psi = [p; p] ->
  exists post, multivariate_normal_known_mean X mu (mkInverseWishart nu psi) = Ok post /\
    nd_entry (InverseWishart_nu post) [] = nd_entry nu [] + nlit (Z.of_nat p) /\
    nd_shape (InverseWishart_psi post) = [p; p] /\
    forall i j, i < p -> j < p -> nd_entry (InverseWishart_psi post) [i; j] =
      nd_entry psi [i; j] + nsum p (fun t => (nd_entry X [t] - nd_entry mu [t]) * (nd_entry X [t] - nd_entry mu [t])).
Proof.
  intros SX Sm Sn SP. unfold multivariate_normal_known_mean. cbn [InverseWishart_nu InverseWishart_psi]. unfold shape0.
  rewrite SX. cbn [bind nadd nsub NumNd lift2 int]. unfold map2. rewrite Sn, SX, Sm. cbn [nd_shape scalar].
  rewrite bs_0, bs_11, dim_refl. cbn [option_map bind transpose rmap matmul]. unfold matmul_nd, transpose_nd.
  cbn [nd_shape rev app]. rewrite Nat.eqb_refl. cbn [bind nd_shape]. rewrite SP, bs_0r. cbn [bind].
  eexists. split; [reflexivity|]. cbn [InverseWishart_nu InverseWishart_psi nd_entry nd_shape]. split; [|split; [reflexivity|]].
  - rewrite !at_scalar by (reflexivity || assumption). reflexivity.
  - intros i j Hi Hj. rewrite (at_square p) by assumption. rewrite at_scalar by reflexivity. cbn [nd_entry]. f_equal.
    apply nsum_ext. intros t Ht. cbn [rev app]. now rewrite !(at_flat p) by assumption.
Qed.

(** The same for unknown mean and covariance *)
Lemma multivariate_normal_flat p X mu kappa nu psi : 0 < p ->
  nd_shape X = [p] -> nd_shape mu = [p] -> nd_shape kappa = [] -> nd_shape nu = [] -> nd_shape psi = [p; p] ->
  exists post, multivariate_normal X (mkNormalInverseWishart mu kappa nu psi) np_outer = Ok post /\
    nd_shape (NormalInverseWishart_mu post) = [p] /\ nd_shape (NormalInverseWishart_psi post) = [p; p] /\
    nd_entry (NormalInverseWishart_kappa post) [] = nd_entry kappa [] + nlit (Z.of_nat p) /\
    nd_entry (NormalInverseWishart_nu post) [] = nd_entry nu [] + nlit (Z.of_nat p) /\
    forall i, i < p -> nd_entry (NormalInverseWishart_mu post) [i] =
      (nd_entry mu [i] * nd_entry kappa [] + nlit (Z.of_nat p) * (nsum p (fun t => nd_entry X [t]) / nlit (Z.of_nat p)))
      / (nd_entry kappa [] + nlit (Z.of_nat p)).
Proof.
  intros Hp SX Sm Sk Sn SP. unfold multivariate_normal, mean0, shape0. rewrite SX. cbn [bind].
  cbn [NormalInverseWishart_mu NormalInverseWishart_kappa NormalInverseWishart_nu NormalInverseWishart_psi].
  set (xm := mkNd [] _).
  assert (Sxm : nd_shape xm = []) by reflexivity.
  eassert (has (transpose (Ok X - Ok xm) @@ (Ok X - Ok xm)) []) as (C & -> & SC) by shp. cbn [bind].
  assert (E1 : exists mp, ((Ok mu * Ok kappa) + (int p * Ok xm)) / (Ok kappa + int p) = Ok mp /\ nd_shape mp = [p] /\
    forall i, i < p -> nd_entry mp [i] =
      (nd_entry mu [i] * nd_entry kappa [] + nlit (Z.of_nat p) * (nsum p (fun t => nd_entry X [t]) / nlit (Z.of_nat p)))
      / (nd_entry kappa [] + nlit (Z.of_nat p))).
  { cbn [nadd nmul ndiv NumNd lift2 int bind]. unfold map2. rewrite Sm, Sk, Sxm. cbn [nd_shape scalar].
    repeat (progress rewrite ?bs_0, ?bs_0r; cbn [bind nd_shape]). eexists. split; [reflexivity|].
    split; [reflexivity|]. intros i Hi. cbn [nd_entry].
    rewrite (at_flat p) by (reflexivity || assumption). cbn [nd_entry].
    rewrite (at_flat p (mkNd [p] _)) by (reflexivity || assumption). cbn [nd_entry].
    rewrite !(at_flat p mu), !(at_scalar _ kappa) by assumption.
    rewrite !at_scalar by reflexivity. cbn [nd_entry]. rewrite !at_scalar by (reflexivity || assumption). reflexivity. }
  destruct E1 as (mp & -> & Smp & Emp). cbn [bind].
  assert (E2 : forall a : nd A, nd_shape a = [] -> exists kp, Ok a + int p = Ok kp /\ nd_shape kp = [] /\ nd_entry kp [] = nd_entry a [] + nlit (Z.of_nat p)).
  { intros a Sa. cbn [nadd NumNd lift2 int bind]. unfold map2. rewrite Sa. cbn [nd_shape scalar]. rewrite bs_0.
    eexists. split; [reflexivity|]. split; [reflexivity|]. cbn [nd_entry]. now rewrite !at_scalar by (reflexivity || assumption). }
  destruct (E2 kappa Sk) as (kp & -> & Skp & Ekp). cbn [bind].
  destruct (E2 nu Sn) as (np & -> & Snp & Enp). cbn [bind].
  eassert (has (Ok xm - Ok mu) _) as (md & -> & Smd) by shp. cbn [bind].
  assert (So : has (np_outer md md) [p; p]).
  { unfold np_outer. eexists. split; [reflexivity|]. unfold ravel. cbn [nd_shape]. rewrite Smd. cbn. now rewrite Nat.mul_1_r. }
  assert (has ((Ok psi + Ok C) + ((((np_outer md md) * int p) * Ok kappa) / Ok kp)) [p; p]) as (pp & -> & Spp).
  { apply (has_lift2 _ _ _ [p; p] [p; p]); [shp| |dims]. apply (has_lift2 _ _ _ [p; p] []); [|shp|dims].
    apply (has_lift2 _ _ _ [p; p] []); [|shp|dims]. apply (has_lift2 _ _ _ [p; p] []); [exact So|shp|dims]. }
  cbn [bind]. eexists. split; [reflexivity|]. cbn. auto 8.
Qed.

(** A prior mean stored as a column is rejected here *)
Lemma multivariate_normal_column N p X mu kappa nu psi : 1 < p ->
  nd_shape X = [N; p] -> nd_shape mu = [p; 1] -> nd_shape kappa = [] -> nd_shape nu = [] -> nd_shape psi = [p; p] ->
  fails (multivariate_normal X (mkNormalInverseWishart mu kappa nu psi) np_outer).
Proof.
  intros Hp SX Sm Sk Sn SP. unfold multivariate_normal, mean0, shape0. rewrite SX. cbn [bind].
  cbn [NormalInverseWishart_mu NormalInverseWishart_kappa NormalInverseWishart_nu NormalInverseWishart_psi].
  set (xm := mkNd [p] _).
  assert (Sxm : nd_shape xm = [p]) by reflexivity.
  eval_bind C SC. eval_bind mp Smp. eval_bind kp Skp. eval_bind np Snp. eval_bind md Smd.
  apply fails_bind. eapply fails_lift2; [shp| |].
  - assert (So : has (np_outer md md) [(p * p)%nat; (p * p)%nat]).
    { unfold np_outer. eexists. split; [reflexivity|]. unfold ravel. cbn [nd_shape]. rewrite Smd. cbn. now rewrite Nat.mul_1_r. }
    apply (has_lift2 _ _ _ [(p * p)%nat; (p * p)%nat] [] [(p * p)%nat; (p * p)%nat]); [|shp|dims]. apply (has_lift2 _ _ _ [(p * p)%nat; (p * p)%nat] []); [|shp|dims].
    apply (has_lift2 _ _ _ [(p * p)%nat; (p * p)%nat] []); [exact So|shp|dims].
  - rewrite bs_22, dim_none; [reflexivity| | |]; nia.
Qed.
End Functions.

(** ** np.outer of arrays of any shape *)

Lemma place_from_size k s i : index_of s i -> place_from k s i = (k * size s + place s i)%nat.
Proof.
  intros H. unfold place. revert k. induction H as [|j d i s Hj H IH]; intros k; cbn [place_from size fold_right]; [lia|].
  rewrite IH, (IH (0 * d + j)%nat). fold (size s). lia.
Qed.
Lemma place_lt s i : index_of s i -> (place s i < size s)%nat.
Proof.
  induction 1 as [|j d i s Hj H IH]; [cbn; lia|]. unfold place. cbn [place_from]. rewrite place_from_size by exact H.
  cbn [size fold_right]. fold (size s). nia.
Qed.
Lemma unravel_place s i : index_of s i -> unravel s (place s i) = i.
Proof.
  induction 1 as [|j d i s Hj H IH]; [reflexivity|]. pose proof (place_lt s i H) as L. unfold place. cbn [place_from unravel].
  rewrite place_from_size by exact H. cbn [Nat.mul Nat.add].
  replace (j * size s + place s i)%nat with (place s i + j * size s)%nat by lia.
  rewrite Nat.div_add, Nat.mod_add by lia. rewrite Nat.div_small, Nat.mod_small by lia. f_equal. exact IH.
Qed.
Lemma outer_any_shape {A} {NA : Num A} (a b : nd A) : exists o, np_outer a b = Ok o /\
  nd_shape o = [fold_right Nat.mul 1%nat (nd_shape a); fold_right Nat.mul 1%nat (nd_shape b)] /\
  forall i j, index_of (nd_shape a) i -> index_of (nd_shape b) j ->
    nd_entry o [place (nd_shape a) i; place (nd_shape b) j] = nmul (nd_entry a i) (nd_entry b j).
Proof.
  eexists. split; [reflexivity|]. split; [reflexivity|]. intros i j Hi Hj. cbn. now rewrite !unravel_place.
Qed.
