(** C55-C57, C60, C61: the samplers.

    [entries], [advance] and [from_seed] stand for scipy and numpy: which numbers a
    sampler computes from a generator state, which state it leaves, and which state
    a seed makes.  Every theorem holds for all of them. *)

From Coq Require Import Reals Lra ZArith String Lia.
From Coquelicot Require Import Coquelicot.
From Verif Require Import Model.Num Model.Py Model.Dists Model.ScipyDist Model.Models Model.NdArray Model.MatrixModel Model.Sampling.
From Verif Require Import Spec.Special Spec.Densities Spec.Bayes Spec.Joint Spec.Shapes Spec.Sampling.
From Verif Require Import Analysis.GammaFacts Proofs.Conj Proofs.Refute Proofs.Sampling Proofs.SamplingLaws.
From Coq Require Import List.
Import ListNotations.
Open Scope R_scope.

(** A small scipy for the examples: generator states are counters, a scale family
    answers with the scale times the number of the state. *)
Definition toy_entries (q : request (nd R)) (g : nat) (i : list nat) : R :=
  match q with
  | Q_gamma _ s _ => nd_entry s []
  | Q_invgamma _ s _ => nd_entry s []
  | Q_multivariate_normal m c _ => nd_entry m i + fold_right Rplus 0 (map (fun t => sqrt (nd_entry c [hd 0%nat i; t]) * INR g) (seq 0 2))
  | _ => INR g
  end.
Definition toy_advance (q : request (nd R)) (g : nat) : nat := S g.
Definition toy_world : @world R nat := mkWorld 0%nat 7%nat [].
Definition sc (x : R) : nd R := scalar x.
Definition toy_nig : NormalInverseGamma (nd R) (nd R) (nd R) := mkNormalInverseGamma (sc 1) (sc 2) (sc 3) None (Some (sc 4)).
Definition toy_ng : NormalGamma (nd R) := mkNormalGamma (sc 1) (sc 4) (sc 2) (sc 3).
Definition vec2 : nd R := mkNd [2%nat] (fun _ => 1).
Definition mat2 : nd R := mkNd [2%nat; 2%nat] (fun i => match i with [r; c] => if Nat.eqb r c then 1 else 0 | _ => 0 end).
Definition toy_nig2 : NormalInverseGamma (nd R) (nd R) (nd R) := mkNormalInverseGamma vec2 (sc 2) (sc 3) (Some mat2) None.

(** ** C55 *)

(** C55 is false of the code: NormalGamma.sample_variance divides by lam. *)
Theorem C55_same_variance_refuted :
  ~ (forall (G : Type) entries advance from_seed (d1 : NormalInverseGamma (nd R) (nd R) (nd R)) (d2 : NormalGamma (nd R)) k rs (w : @world R G),
     inverts_gamma entries ->
     NormalGamma_alpha d2 = NormalInverseGamma_alpha d1 -> NormalGamma_beta d2 = NormalInverseGamma_beta d1 ->
     NormalInverseGamma_nu d1 = Some (NormalGamma_lam d2) -> NormalInverseGamma_mu d1 = NormalGamma_mu d2 ->
     nd_shape (NormalGamma_lam d2) = [] -> nd_shape (NormalInverseGamma_alpha d1) = [] -> nd_shape (NormalInverseGamma_beta d1) = [] ->
     forall i v1 v2 w1 w2, (i < k)%nat ->
     NormalInverseGamma_sample_variance G entries advance from_seed d1 k rs w = (Ok v1, w1) ->
     NormalGamma_sample_variance G entries advance from_seed d2 k rs w = (Ok v2, w2) ->
     nd_entry v2 [i] = nd_entry v1 [i]).
Proof.
  intros H.
  assert (E : inverts_gamma toy_entries). { intros a s s' k g i _ _ E. simpl. rewrite E. now rewrite Rinv_inv. }
  specialize (H nat toy_entries toy_advance Z.to_nat toy_nig toy_ng 1%nat (RS_int 0) toy_world E
     eq_refl eq_refl eq_refl eq_refl eq_refl eq_refl eq_refl 0%nat _ _ _ _ (le_n 1) eq_refl eq_refl).
  simpl in H. unfold at_index in H; simpl in H. field_simplify in H; lra.
Qed.

Print Assumptions C55_same_variance_refuted.

(** C55, exactly: from the same draws, with the same alpha and beta, the sampled
    variances of NormalGamma are those of NormalInverseGamma divided by lam. *)
Theorem C55_variance_ratio :
  forall (G : Type) entries advance from_seed (d1 : NormalInverseGamma (nd R) (nd R) (nd R)) (d2 : NormalGamma (nd R)) k rs (w : @world R G),
  inverts_gamma entries ->
  NormalGamma_alpha d2 = NormalInverseGamma_alpha d1 -> NormalGamma_beta d2 = NormalInverseGamma_beta d1 ->
  nd_shape (NormalGamma_lam d2) = [] -> nd_shape (NormalInverseGamma_alpha d1) = [] -> nd_shape (NormalInverseGamma_beta d1) = [] ->
  returns (NormalInverseGamma_sample_variance G entries advance from_seed d1 k rs) w (fun v1 _ =>
  returns (NormalGamma_sample_variance G entries advance from_seed d2 k rs) w (fun v2 _ =>
    nd_shape v1 = [k] /\ nd_shape v2 = [k] /\
    forall i, (i < k)%nat -> nd_entry v2 [i] = nd_entry v1 [i] / nd_entry (NormalGamma_lam d2) [])).
Proof. exact @coupled_variance. Qed.

Example C55_case :
  inverts_gamma toy_entries /\ NormalGamma_alpha toy_ng = NormalInverseGamma_alpha toy_nig.
Proof. split; auto. intros a s s' k g i _ _ E. simpl. rewrite E. now rewrite Rinv_inv. Qed.

Print Assumptions C55_variance_ratio.

(** C55, in law: 1 / (lam tau) with tau ~ Gamma(alpha, rate beta) is
    InverseGamma(alpha, beta / lam), not InverseGamma(alpha, beta). *)
Theorem C55_variance_law :
  forall a b lam c d, 0 < b -> 0 < lam -> 0 < c -> c <= d ->
  exists p, is_RInt (pdf (Gamma_dist (mkGamma a b))) (1 / (lam * d)) (1 / (lam * c)) p /\
            is_RInt (pdf (InverseGamma_dist (mkInverseGamma a (b / lam)))) c d p.
Proof. exact inverted_gamma_law. Qed.

Example C55_case_law :
  exists p, is_RInt (pdf (S_gamma_scale 2 (1 / 3))) (1 / (4 * 5)) (1 / (4 * 1)) p /\ is_RInt (pdf (S_invgamma_scale 2 (3 / 4))) 1 5 p.
Proof. apply (C55_variance_law 2 3 4 1 5); lra. Qed.

Print Assumptions C55_variance_law.

(** C55, what holds: the pair (mean, variance) of NormalInverseGamma is drawn from
    the normal-inverse-gamma density. *)
Theorem C55_normal_inverse_gamma_law :
  forall (G : Type) entries advance from_seed (d : NormalInverseGamma (nd R) (nd R) (nd R)) nu k rs (w : @world R G),
  NormalInverseGamma_delta_inverse d = None -> NormalInverseGamma_nu d = Some nu -> nd_shape nu = [] ->
  nd_shape (NormalInverseGamma_mu d) = [] -> nd_shape (NormalInverseGamma_alpha d) = [] -> nd_shape (NormalInverseGamma_beta d) = [] ->
  returns (NormalInverseGamma_sample_beta G entries advance from_seed d k true rs) w (fun r w' =>
    exists beta v q1 q2 g1 g2, r = (beta, Some v) /\ draws w w' [(q1, g1); (q2, g2)] /\
      forall i, (i < k)%nat -> nd_entry v [i] = entries q1 g1 [i] /\ nd_entry beta [i] = entries q2 g2 [i] /\
        forall m, request_pdf q1 [i] (nd_entry v [i]) * request_pdf q2 [i] m =
          nig_pdf (nd_entry (NormalInverseGamma_mu d) []) (nd_entry nu []) (nd_entry (NormalInverseGamma_alpha d) [])
                  (nd_entry (NormalInverseGamma_beta d) []) m (nd_entry v [i])).
Proof. exact @nig_law. Qed.

Example C55_case_nig :
  NormalInverseGamma_delta_inverse toy_nig = None /\ NormalInverseGamma_nu toy_nig = Some (sc 4) /\ nd_shape (NormalInverseGamma_mu toy_nig) = [].
Proof. auto. Qed.

Print Assumptions C55_normal_inverse_gamma_law.

(** C55, what holds: NormalGamma draws (mean, precision tau) from the normal-gamma
    density; what it returns as variance is 1 / (lam tau), the variance of the mean. *)
Theorem C55_normal_gamma_law :
  forall (G : Type) entries advance from_seed (d : NormalGamma (nd R)) k rs (w : @world R G),
  nd_shape (NormalGamma_mu d) = [] -> nd_shape (NormalGamma_lam d) = [] ->
  nd_shape (NormalGamma_alpha d) = [] -> nd_shape (NormalGamma_beta d) = [] ->
  returns (NormalGamma_sample_beta G entries advance from_seed d k true rs) w (fun r w' =>
    exists beta v tau q1 q2 g1 g2, r = (beta, Some v) /\ draws w w' [(q1, g1); (q2, g2)] /\
      forall i, (i < k)%nat -> tau i = entries q1 g1 [i] /\ nd_entry beta [i] = entries q2 g2 [i] /\
        nd_entry v [i] = 1 / (nd_entry (NormalGamma_lam d) [] * tau i) /\
        (0 < nd_entry (NormalGamma_lam d) [] * tau i ->
         forall m, request_pdf q1 [i] (tau i) * request_pdf q2 [i] m =
          ng_pdf (nd_entry (NormalGamma_mu d) []) (nd_entry (NormalGamma_lam d) []) (nd_entry (NormalGamma_alpha d) [])
                 (nd_entry (NormalGamma_beta d) []) m (tau i))).
Proof. exact @ng_law. Qed.

Example C55_case_ng :
  nd_shape (NormalGamma_mu toy_ng) = [] /\ 0 < nd_entry (NormalGamma_lam toy_ng) [] * toy_entries (Q_gamma (sc 2) (sc (1 / 3)) (Some [1%nat])) 7 [0%nat].
Proof. simpl. split; auto. lra. Qed.

Print Assumptions C55_normal_gamma_law.

(** C55, inverse Wishart: the covariance returned is the inverse Wishart draw divided
    by kappa, and each mean is drawn with exactly that covariance. *)
Theorem C55_normal_inverse_wishart_law :
  forall (G : Type) entries advance from_seed (d : NormalInverseWishart (nd R)) n k rs (w : @world R G),
  nd_shape (NormalInverseWishart_mu d) = [n] -> nd_shape (NormalInverseWishart_psi d) = [n; n] ->
  nd_shape (NormalInverseWishart_kappa d) = [] -> (2 <= n)%nat -> (0 < k)%nat ->
  returns (NormalInverseWishart_sample_mean G entries advance from_seed d k true rs) w (fun r _ =>
    exists mean v gs,
      let q := Q_invwishart (NormalInverseWishart_nu d) (NormalInverseWishart_psi d) k in
      r = (mean, Some v) /\ nd_shape mean = [k; n] /\ nd_shape v = [k; n; n] /\
      (forall i r c, (i < k)%nat -> (r < n)%nat -> (c < n)%nat -> nd_entry v [i; r; c] =
         entries q (state_of G from_seed rs w) (at_draw k i r c) / nd_entry (NormalInverseWishart_kappa d) []) /\
      (forall z, rs = RS_int z -> forall i, gs i = from_seed z) /\
      forall i, (i < k)%nat -> exists cov, nd_shape cov = [n; n] /\ (forall a b, nd_entry cov [a; b] = nd_entry v [i; a; b]) /\
        forall j, nd_entry mean [i; j] = entries (Q_multivariate_normal (NormalInverseWishart_mu d) cov 1) (gs i) [j]).
Proof. intros G entries advance from_seed d n k rs w. exact (niw_anatomy entries advance from_seed d n k true rs w). Qed.

Example C55_case_niw :
  let d := mkNormalInverseWishart vec2 (sc 4) (sc 5) mat2 in
  nd_shape (NormalInverseWishart_mu d) = [2%nat] /\ nd_shape (NormalInverseWishart_psi d) = [2%nat; 2%nat].
Proof. simpl; auto. Qed.

Print Assumptions C55_normal_inverse_wishart_law.

(** C55, Wishart: the covariance returned is the inverse of lam times the Wishart draw
    (and the call raises what [inv] raises). *)
Theorem C55_normal_wishart_law :
  forall (G : Type) entries advance from_seed inv (d : NormalWishart (nd R)) n k rs (w : @world R G),
  nd_shape (NormalWishart_mu d) = [n] -> nd_shape (NormalWishart_W d) = [n; n] ->
  nd_shape (NormalWishart_lam d) = [] -> (2 <= n)%nat -> (0 < k)%nat ->
  let q := Q_wishart (NormalWishart_nu d) (NormalWishart_W d) k in
  exists precision, nd_shape precision = (if Nat.eqb k 1 then [n; n] else [k; n; n]) /\
    (forall i r c, (i < k)%nat -> (r < n)%nat -> (c < n)%nat -> nd_entry precision (at_draw k i r c) =
       nd_entry (NormalWishart_lam d) [] * entries q (state_of G from_seed rs w) (at_draw k i r c)) /\
    (forall e, inv precision = Raise e ->
       raises (NormalWishart_sample_mean G entries advance from_seed inv d k true rs) w e) /\
    forall variance, inv precision = Ok variance -> nd_shape variance = nd_shape precision ->
  returns (NormalWishart_sample_mean G entries advance from_seed inv d k true rs) w (fun r _ =>
    exists mean v gs,
      r = (mean, Some v) /\ nd_shape mean = [k; n] /\ nd_shape v = [k; n; n] /\
      (forall i r c, (i < k)%nat -> nd_entry v [i; r; c] = nd_entry variance (at_draw k i r c)) /\
      (forall z, rs = RS_int z -> forall i, gs i = from_seed z) /\
      forall i, (i < k)%nat -> exists cov, nd_shape cov = [n; n] /\ (forall a b, nd_entry cov [a; b] = nd_entry v [i; a; b]) /\
        forall j, nd_entry mean [i; j] = entries (Q_multivariate_normal (NormalWishart_mu d) cov 1) (gs i) [j]).
Proof. intros G entries advance from_seed inv d n k rs w. exact (nw_anatomy entries advance from_seed inv d n k true rs w). Qed.

Example C55_case_nw :
  let d := mkNormalWishart vec2 (sc 4) mat2 (sc 5) in
  nd_shape (NormalWishart_W d) = [2%nat; 2%nat] /\ nd_shape (NormalWishart_lam d) = [].
Proof. simpl; auto. Qed.

Print Assumptions C55_normal_wishart_law.

(** ** C56 *)

(** C56 is false of the code: an integer seed gives two draws the same random numbers. *)
Theorem C56_integer_seed_refuted :
  ~ (forall (G : Type) (entries : request (nd R) -> G -> list nat -> R) advance from_seed d k seed,
     never_repeats advance ->
     independent (NormalInverseGamma_sample_beta G entries advance from_seed d k true (RS_int seed))).
Proof.
  intros H. specialize (H nat toy_entries toy_advance Z.to_nat toy_nig 1%nat 0%Z counter_never_repeats toy_world _ _ _ eq_refl eq_refl).
  unfold distinct_draws in H. simpl in H. inversion H; subst. apply H2. now left.
Qed.

Print Assumptions C56_integer_seed_refuted.

(** C56, in general: with an integer seed every draw of every sampler starts from the
    same state, so no call that draws twice has independent draws. *)
Theorem C56_integer_seed_reseeds :
  forall (G : Type) (entries : request (nd R) -> G -> list nat -> R) advance from_seed seed,
  (forall d k rv, reseeds from_seed seed (NormalInverseGamma_sample_beta G entries advance from_seed d k rv (RS_int seed))) /\
  (forall d k rv, reseeds from_seed seed (NormalGamma_sample_beta G entries advance from_seed d k rv (RS_int seed))) /\
  (forall d k rv, reseeds from_seed seed (NormalInverseWishart_sample_mean G entries advance from_seed d k rv (RS_int seed))) /\
  (forall inv d k rv, reseeds from_seed seed (NormalWishart_sample_mean G entries advance from_seed inv d k rv (RS_int seed))) /\
  (forall a b one_start size, reseeds from_seed seed (beta_geometric_rvs G entries advance from_seed a b one_start size (RS_int seed))) /\
  (forall a b q size, reseeds from_seed seed (compound_gamma_rvs G entries advance from_seed a b q size (RS_int seed))).
Proof.
  intros. split; [|split; [|split; [|split; [|split]]]]; intros.
  - apply nig_reseeds. - apply ng_reseeds. - apply niw_reseeds. - apply nw_reseeds. - apply bg_reseeds. - apply cg_reseeds.
Qed.

Print Assumptions C56_integer_seed_reseeds.

Theorem C56_integer_seed_dependent :
  forall (A G T : Type) (from_seed : Z -> G) seed (m : @samp A G T) w r w' l,
  reseeds from_seed seed m -> m w = (r, w') -> draws w w' l -> (2 <= length l)%nat -> ~ distinct_draws l.
Proof. exact @reseeds_not_distinct. Qed.

Example C56_case :
  exists r w' l, NormalInverseGamma_sample_beta nat toy_entries toy_advance Z.to_nat toy_nig 3 true (RS_int 5) toy_world = (r, w') /\
  draws toy_world w' l /\ length l = 2%nat /\ map snd l = [5%nat; 5%nat].
Proof. do 3 eexists. split. reflexivity. split. unfold draws. simpl. reflexivity. simpl. auto. Qed.

Print Assumptions C56_integer_seed_dependent.

(** C56, the consequence: with numpy's method for the multivariate normal, all the
    coefficient vectors of one call lie on one line through the mean. *)
Theorem C56_integer_seed_collinear :
  forall (G : Type) entries advance from_seed (d : NormalInverseGamma (nd R) (nd R) (nd R)) D n k seed (w : @world R G),
  affine_normal n entries ->
  NormalInverseGamma_delta_inverse d = Some D -> nd_shape D = [n; n] -> nd_shape (NormalInverseGamma_mu d) = [n] ->
  nd_shape (NormalInverseGamma_alpha d) = [] -> nd_shape (NormalInverseGamma_beta d) = [] -> (2 <= n)%nat -> (0 < k)%nat ->
  returns (NormalInverseGamma_sample_beta G entries advance from_seed d k true (RS_int seed)) w (fun r _ =>
    exists beta v, r = (beta, Some v) /\ nd_shape beta = [k; n] /\ nd_shape v = [k] /\
    ((forall i, (i < k)%nat -> 0 <= nd_entry v [i]) -> exists direction : nat -> R,
      forall i j, (i < k)%nat -> (j < n)%nat ->
        nd_entry beta [i; j] = nd_entry (NormalInverseGamma_mu d) [j] + sqrt (nd_entry v [i]) * direction j)).
Proof. exact @nig_collinear. Qed.

Example C56_case_collinear :
  affine_normal 2 toy_entries /\ NormalInverseGamma_delta_inverse toy_nig2 = Some mat2.
Proof.
  split; auto. exists (fun c j t => sqrt (nd_entry c [j; t])), (fun g _ => INR g). split.
  - intros. reflexivity.
  - intros v cov cov' j t Hv _ _ E Hj Ht. rewrite E by auto. now apply sqrt_mult_alt.
Qed.

Print Assumptions C56_integer_seed_collinear.

(** C56, what holds: with a generator the draws of one call use up one stream, in
    order, and touch nothing else. *)
Theorem C56_generator_threads :
  forall (G : Type) (entries : request (nd R) -> G -> list nat -> R) advance from_seed,
  (forall d k rv, threads advance (NormalInverseGamma_sample_beta G entries advance from_seed d k rv RS_generator)) /\
  (forall d k rv, threads advance (NormalGamma_sample_beta G entries advance from_seed d k rv RS_generator)) /\
  (forall d k rv, threads advance (NormalInverseWishart_sample_mean G entries advance from_seed d k rv RS_generator)) /\
  (forall inv d k rv, threads advance (NormalWishart_sample_mean G entries advance from_seed inv d k rv RS_generator)) /\
  (forall a b one_start size, threads advance (beta_geometric_rvs G entries advance from_seed a b one_start size RS_generator)) /\
  (forall a b q size, threads advance (compound_gamma_rvs G entries advance from_seed a b q size RS_generator)).
Proof.
  intros. split; [|split; [|split; [|split; [|split]]]]; intros.
  - apply nig_threads. - apply ng_threads. - apply niw_threads. - apply nw_threads. - apply bg_threads. - apply cg_threads.
Qed.

Print Assumptions C56_generator_threads.

(** C56: and so no two draws share their randomness. *)
Theorem C56_generator_independent :
  forall (A G : Type) (advance : request (nd A) -> G -> G) (T : Type) (m : @samp A G T),
  never_repeats advance -> threads advance m -> independent m.
Proof. exact @threads_independent. Qed.

Example C56_case_generator :
  never_repeats toy_advance /\
  exists r w' l, NormalInverseGamma_sample_beta nat toy_entries toy_advance Z.to_nat toy_nig2 2 true RS_generator toy_world = (r, w') /\
  draws toy_world w' l /\ map snd l = [7; 8; 9]%nat.
Proof. split. exact counter_never_repeats. do 3 eexists. split. reflexivity. split. unfold draws. simpl. reflexivity. reflexivity. Qed.

Print Assumptions C56_generator_independent.

(** ** C57 *)

(** C57 for beta_geometric: the broadcast shape, or ValueError when there is none. *)
Theorem C57_beta_geometric_shape :
  forall (G : Type) (entries : request (nd R) -> G -> list nat -> R) advance from_seed (a b : nd R) one_start size rs (w : @world R G) u,
  size <> Sz_int 0 -> joint [nd_shape a; nd_shape b; size_shape size] u ->
  returns (beta_geometric_rvs G entries advance from_seed a b one_start size rs) w (fun r _ => nd_shape r = u).
Proof.
  intros G entries advance from_seed a b one_start size rs w u H1 H2.
  exact (returns_mono _ _ _ _ (fun r w' H => proj1 H) (bg_anatomy entries advance from_seed a b one_start size rs w u H1 H2)).
Qed.

Theorem C57_beta_geometric_incompatible :
  forall (G : Type) (entries : request (nd R) -> G -> list nat -> R) advance from_seed (a b : nd R) one_start size rs (w : @world R G),
  size <> Sz_int 0 -> incompatible [nd_shape a; nd_shape b; size_shape size] ->
  raises (beta_geometric_rvs G entries advance from_seed a b one_start size rs) w cannot_broadcast.
Proof. intros G. exact (bg_incompatible (G := G)). Qed.

Example C57_case :
  joint [nd_shape vec2; nd_shape (sc 1); size_shape (Sz_tuple [3; 1]%nat)] [3; 2]%nat.
Proof. exact (broadcast_all_joint [[2]; []; [3; 1]]%nat). Qed.
Example C57_case_incompatible :
  incompatible [nd_shape vec2; nd_shape (sc 1); size_shape (Sz_int 5)].
Proof. exact (broadcast_all_joint [[2]; []; [5]]%nat). Qed.

Print Assumptions C57_beta_geometric_shape.
Print Assumptions C57_beta_geometric_incompatible.

(** C57 for compound_gamma: leading dimensions of size 1 are lost. *)
Theorem C57_compound_gamma_shape_partial :
  forall (G : Type) (entries : request (nd R) -> G -> list nat -> R) advance from_seed (a b q : nd R) size rs (w : @world R G) u,
  size <> Sz_int 0 -> joint [nd_shape a; nd_shape b; nd_shape q; size_shape size] u ->
  returns (compound_gamma_rvs G entries advance from_seed a b q size rs) w (fun r _ =>
    nd_shape r = squeeze_left u /\ (nd_shape r = u <-> hd 0%nat u <> 1%nat)).
Proof.
  intros G entries advance from_seed a b q size rs w u H1 H2.
  refine (returns_mono _ _ _ _ _ (cg_anatomy entries advance from_seed a b q size rs w u H1 H2)).
  intros r w' [E _]. split; auto. rewrite E. apply squeeze_left_iff.
Qed.

Theorem C57_compound_gamma_incompatible :
  forall (G : Type) (entries : request (nd R) -> G -> list nat -> R) advance from_seed (a b q : nd R) size rs (w : @world R G),
  size <> Sz_int 0 -> incompatible [nd_shape a; nd_shape b; nd_shape q; size_shape size] ->
  raises (compound_gamma_rvs G entries advance from_seed a b q size rs) w cannot_broadcast.
Proof. intros G. exact (cg_incompatible (G := G)). Qed.

Example C57_case_compound :
  joint [nd_shape vec2; nd_shape (sc 1); nd_shape (sc 1); size_shape (Sz_tuple [3; 2]%nat)] [3; 2]%nat /\ hd 0%nat [3; 2]%nat <> 1%nat.
Proof. split. exact (broadcast_all_joint [[2]; []; []; [3; 2]]%nat). discriminate. Qed.

Print Assumptions C57_compound_gamma_shape_partial.
Print Assumptions C57_compound_gamma_incompatible.

(** C57 is false of the code for [compound_gamma.rvs(size=1)] ... *)
Theorem C57_compound_gamma_shape_refuted :
  ~ (forall (G : Type) (entries : request (nd R) -> G -> list nat -> R) advance from_seed (a b q : nd R) size rs (w : @world R G) u,
     joint [nd_shape a; nd_shape b; nd_shape q; size_shape size] u ->
     returns (compound_gamma_rvs G entries advance from_seed a b q size rs) w (fun r _ => nd_shape r = u)).
Proof.
  intros H. specialize (H nat toy_entries toy_advance Z.to_nat (sc 1) (sc 1) (sc 1) (Sz_int 1) RS_None toy_world [1%nat]
    (broadcast_all_joint [[]; []; []; [1]]%nat)).
  destruct H as (r & w' & E & Hs). simpl in E. injection E as <- _. discriminate.
Qed.

Print Assumptions C57_compound_gamma_shape_refuted.

(** ... and for [size=0], which both samplers take for no size at all. *)
Theorem C57_size_zero_refuted :
  ~ (forall (G : Type) (entries : request (nd R) -> G -> list nat -> R) advance from_seed (a b : nd R) one_start size rs (w : @world R G) u,
     joint [nd_shape a; nd_shape b; size_shape size] u ->
     returns (beta_geometric_rvs G entries advance from_seed a b one_start size rs) w (fun r _ => nd_shape r = u)).
Proof.
  intros H. specialize (H nat toy_entries toy_advance Z.to_nat (sc 1) (sc 1) true (Sz_int 0) RS_None toy_world [0%nat]
    (broadcast_all_joint [[]; []; [0]]%nat)).
  destruct H as (r & w' & E & Hs). simpl in E. injection E as <- _. discriminate.
Qed.

Print Assumptions C57_size_zero_refuted.

Theorem C57_size_zero_is_none :
  forall (G : Type) (entries : request (nd R) -> G -> list nat -> R) advance from_seed (a b q : nd R) one_start rs,
  beta_geometric_rvs G entries advance from_seed a b one_start (Sz_int 0) rs
    = beta_geometric_rvs G entries advance from_seed a b one_start Sz_None rs /\
  compound_gamma_rvs G entries advance from_seed a b q (Sz_int 0) rs
    = compound_gamma_rvs G entries advance from_seed a b q Sz_None rs.
Proof. intros. split; [apply bg_zero|apply cg_zero]. Qed.

Print Assumptions C57_size_zero_is_none.

(** ** C60 *)

(** C60 for compound_gamma: every number it returns has the density its [pdf] reports. *)
Theorem C60_compound_gamma_law :
  forall (G : Type) entries advance from_seed (a b q : nd R) size rs (w : @world R G) u, size <> Sz_int 0 ->
  joint [nd_shape a; nd_shape b; nd_shape q; size_shape size] u -> hd 0%nat u <> 1%nat ->
  returns (compound_gamma_rvs G entries advance from_seed a b q size rs) w (fun r w' =>
    nd_shape r = u /\ exists q1 q2 g1 g2, draws w w' [(q1, g1); (q2, g2)] /\ forall i, Forall2 lt i u ->
      nd_entry r i = entries q2 g2 i /\
      (forall x, request_pdf q2 i x = pdf (S_gamma_scale (at_index i a) (1 / entries q1 g1 i)) x) /\
      (0 < at_index i a -> 0 < at_index i b -> 0 < at_index i q -> forall x, 0 < x ->
         marginal Fpos0 Finf (request_pdf q1 i) (fun rate => pdf (S_gamma_scale (at_index i a) (1 / rate)) x)
           (pdf (C_compound_gamma (at_index i a) (at_index i b) (at_index i q)) x))).
Proof. exact @cg_law. Qed.

Example C60_case_compound :
  joint [nd_shape vec2; nd_shape (sc 1); nd_shape (sc 1); size_shape Sz_None] [2%nat] /\ 0 < at_index [1%nat] vec2.
Proof. split. exact (broadcast_all_joint [[2]; []; []; []]%nat). unfold at_index. simpl. lra. Qed.

Print Assumptions C60_compound_gamma_law.

(** C60 for beta_geometric: the mass of k + 1 (or of k, counting from 0) is
    B(a + 1, k + b) / B(a, b), the true beta-geometric mass. *)
Theorem C60_beta_geometric_law :
  forall (G : Type) entries advance from_seed (a b : nd R) one_start size rs (w : @world R G) u, size <> Sz_int 0 ->
  joint [nd_shape a; nd_shape b; size_shape size] u ->
  returns (beta_geometric_rvs G entries advance from_seed a b one_start size rs) w (fun r w' =>
    exists q1 q2 g1 g2, draws w w' [(q1, g1); (q2, g2)] /\ forall i, Forall2 lt i u ->
      nd_entry r i = entries q2 g2 i - (if one_start then 0 else 1) /\
      (forall k, request_pmf q2 i k = pmf (S_geom_loc (entries q1 g1 i) 0) k) /\
      (0 < at_index i a -> 0 < at_index i b -> forall k : nat,
         marginal Fpos0 Fone (request_pdf q1 i) (fun p => pmf (S_geom_loc p 0) (Z.of_nat k + 1))
           (Beta_fun (at_index i a + 1) (INR k + at_index i b) / Beta_fun (at_index i a) (at_index i b)))).
Proof. exact @bg_law. Qed.

Example C60_case_beta_geometric :
  joint [nd_shape vec2; nd_shape (sc 1); size_shape (Sz_tuple [3; 1]%nat)] [3; 2]%nat /\ 0 < at_index [2%nat; 1%nat] vec2.
Proof. split. exact (broadcast_all_joint [[2]; []; [3; 1]]%nat). unfold at_index. simpl. lra. Qed.

Print Assumptions C60_beta_geometric_law.

(** C60 is false of beta_geometric: its [pmf] is not the mass function of its [rvs]. *)
Theorem C60_beta_geometric_pmf_refuted :
  ~ (forall (a b : R) (k : nat), 0 < a -> 0 < b ->
     marginal Fpos0 Fone (request_pdf (Q_beta (sc a) (sc b) (Some [])) []) (fun p => request_pmf (Q_geom (sc p) (Some [])) [] (Z.of_nat k + 1))
       (pmf (C_beta_geometric a b true) (Z.of_nat k + 1))).
Proof. intros H. apply geometric_beta_predictive_not_marginal. exact (H 1 1 0%nat Rlt_0_1 Rlt_0_1). Qed.

Print Assumptions C60_beta_geometric_pmf_refuted.

(** ** C61 *)

(** C61: one row per sample (and one covariance matrix per sample). *)
Theorem C61_shapes_partial :
  forall (G : Type) (entries : request (nd R) -> G -> list nat -> R) advance from_seed n k rv rs (w : @world R G), (2 <= n)%nat -> (0 < k)%nat ->
  (forall d D, NormalInverseGamma_delta_inverse d = Some D -> nd_shape D = [n; n] -> nd_shape (NormalInverseGamma_mu d) = [n] ->
     nd_shape (NormalInverseGamma_alpha d) = [] -> nd_shape (NormalInverseGamma_beta d) = [] ->
     returns (NormalInverseGamma_sample_beta G entries advance from_seed d k rv rs) w (fun r _ =>
       nd_shape (fst r) = [k; n] /\ option_map nd_shape (snd r) = if rv then Some [k] else None)) /\
  (forall d, nd_shape (NormalInverseWishart_mu d) = [n] -> nd_shape (NormalInverseWishart_psi d) = [n; n] ->
     nd_shape (NormalInverseWishart_kappa d) = [] ->
     returns (NormalInverseWishart_sample_mean G entries advance from_seed d k rv rs) w (fun r _ =>
       nd_shape (fst r) = [k; n] /\ option_map nd_shape (snd r) = if rv then Some [k; n; n] else None)) /\
  (forall inv d, inv_shape inv -> nd_shape (NormalWishart_mu d) = [n] -> nd_shape (NormalWishart_W d) = [n; n] ->
     nd_shape (NormalWishart_lam d) = [] ->
     (exists precision e, inv precision = Raise e /\ raises (NormalWishart_sample_mean G entries advance from_seed inv d k rv rs) w e) \/
     returns (NormalWishart_sample_mean G entries advance from_seed inv d k rv rs) w (fun r _ =>
       nd_shape (fst r) = [k; n] /\ option_map nd_shape (snd r) = if rv then Some [k; n; n] else None)).
Proof.
  intros G entries advance from_seed n k rv rs w Hn Hk. split; [|split].
  - intros d D H1 H2 H3 H4 H5.
    refine (returns_mono _ _ _ _ _ (nig_nd_anatomy entries advance from_seed d D n k rv rs w H1 H2 H3 H4 H5 Hn Hk)).
    intros r _ (beta & v & gs & -> & Hb & Hv & _). simpl. split; auto. destruct rv; simpl; congruence.
  - intros d H1 H2 H3.
    refine (returns_mono _ _ _ _ _ (niw_anatomy entries advance from_seed d n k rv rs w H1 H2 H3 Hn Hk)).
    intros r _ (beta & v & gs & -> & Hb & Hv & _). simpl. split; auto. destruct rv; simpl; congruence.
  - intros inv d H0 H1 H2 H3.
    destruct (nw_anatomy entries advance from_seed inv d n k rv rs w H1 H2 H3 Hn Hk) as (p & _ & _ & Hraise & Hret).
    destruct (inv p) as [va|e] eqn:E. 2: { left. exists p, e. auto. }
    right. refine (returns_mono _ _ _ _ _ (Hret va eq_refl (H0 _ _ E))).
    intros r _ (beta & v & gs & -> & Hb & Hv & _). simpl. split; auto. destruct rv; simpl; congruence.
Qed.

Example C61_case : nd_shape (NormalInverseGamma_mu toy_nig2) = [2%nat] /\ nd_shape (NormalInverseGamma_alpha toy_nig2) = [].
Proof. auto. Qed.

Print Assumptions C61_shapes_partial.

(** C61 when [delta_inverse] is a number (the same for all coordinates) or a vector (one per
    coordinate): still one row per sample, drawn with that number or vector times the sampled variance. *)
Theorem C61_other_covariances :
  forall (G : Type) (entries : request (nd R) -> G -> list nat -> R) advance from_seed n k rv rs (w : @world R G), (2 <= n)%nat -> (0 < k)%nat ->
  forall d D, NormalInverseGamma_delta_inverse d = Some D -> nd_shape D = [] \/ nd_shape D = [n] -> nd_shape (NormalInverseGamma_mu d) = [n] ->
  nd_shape (NormalInverseGamma_alpha d) = [] -> nd_shape (NormalInverseGamma_beta d) = [] ->
  returns (NormalInverseGamma_sample_beta G entries advance from_seed d k rv rs) w (fun r _ =>
    exists beta v gs,
      r = (beta, if rv then Some v else None) /\ nd_shape beta = [k; n] /\ nd_shape v = [k] /\
      (forall i, (i < k)%nat -> nd_entry v [i] =
         entries (Q_invgamma (NormalInverseGamma_alpha d) (NormalInverseGamma_beta d) (Some [k])) (state_of G from_seed rs w) [i]) /\
      forall i, (i < k)%nat -> exists cov, nd_shape cov = nd_shape D /\
        (forall t, Forall2 lt t (nd_shape D) -> nd_entry cov t = nd_entry D t * nd_entry v [i]) /\
        forall j, nd_entry beta [i; j] = entries (Q_multivariate_normal (NormalInverseGamma_mu d) cov 1) (gs i) [j]).
Proof. intros G entries advance from_seed n k rv rs w Hn Hk d D H1 H2 H3 H4 H5. exact (nig_nd_other entries advance from_seed d D n k rv rs w H1 H2 H3 H4 H5 Hn Hk). Qed.

Example C61_case_other : let d := mkNormalInverseGamma (mkNd [3%nat] (fun _ => 0)) (sc 2) (sc 5) (Some (sc 1)) None in
  NormalInverseGamma_delta_inverse d = Some (sc 1) /\ nd_shape (sc 1) = [] /\ nd_shape (NormalInverseGamma_mu d) = [3%nat].
Proof. auto. Qed.

Print Assumptions C61_other_covariances.

(** C61 with numbers for parameters: one number per sample, also for size 0. *)
Theorem C61_shapes_scalar :
  forall (G : Type) (entries : request (nd R) -> G -> list nat -> R) advance from_seed k rv rs (w : @world R G),
  (forall d nu, NormalInverseGamma_delta_inverse d = None -> NormalInverseGamma_nu d = Some nu -> nd_shape nu = [] ->
     nd_shape (NormalInverseGamma_mu d) = [] -> nd_shape (NormalInverseGamma_alpha d) = [] -> nd_shape (NormalInverseGamma_beta d) = [] ->
     returns (NormalInverseGamma_sample_beta G entries advance from_seed d k rv rs) w (fun r _ =>
       nd_shape (fst r) = [k] /\ option_map nd_shape (snd r) = if rv then Some [k] else None)) /\
  (forall d, nd_shape (NormalGamma_mu d) = [] -> nd_shape (NormalGamma_lam d) = [] ->
     nd_shape (NormalGamma_alpha d) = [] -> nd_shape (NormalGamma_beta d) = [] ->
     returns (NormalGamma_sample_beta G entries advance from_seed d k rv rs) w (fun r _ =>
       nd_shape (fst r) = [k] /\ option_map nd_shape (snd r) = if rv then Some [k] else None)).
Proof.
  intros G entries advance from_seed k rv rs w. split.
  - intros d nu H1 H2 H3 H4 H5 H6.
    refine (returns_mono _ _ _ _ _ (nig_1d_anatomy entries advance from_seed d nu k rv rs w H1 H2 H3 H4 H5 H6)).
    intros r _ (beta & v & sigma & g1 & g2 & -> & Hb & Hv & _). simpl. split; auto. destruct rv; simpl; congruence.
  - intros d H1 H2 H3 H4.
    refine (returns_mono _ _ _ _ _ (ng_anatomy entries advance from_seed d k rv rs w H1 H2 H3 H4)).
    intros r _ (beta & v & scale & sigma & g1 & g2 & -> & Hb & Hv & _). simpl. split; auto. destruct rv; simpl; congruence.
Qed.

Example C61_case_scalar : nd_shape (NormalGamma_mu toy_ng) = [] /\ NormalInverseGamma_nu toy_nig = Some (sc 4).
Proof. auto. Qed.

Print Assumptions C61_shapes_scalar.

(** C61: in one dimension there are no columns ... *)
Theorem C61_one_dimension :
  forall (G : Type) (entries : request (nd R) -> G -> list nat -> R) advance from_seed k rv rs (w : @world R G), (0 < k)%nat ->
  (forall d D, NormalInverseGamma_delta_inverse d = Some D -> nd_shape D = [1%nat; 1%nat] -> nd_shape (NormalInverseGamma_mu d) = [1%nat] ->
     nd_shape (NormalInverseGamma_alpha d) = [] -> nd_shape (NormalInverseGamma_beta d) = [] ->
     returns (NormalInverseGamma_sample_beta G entries advance from_seed d k rv rs) w (fun r _ => nd_shape (fst r) = [k])) /\
  (forall d, nd_shape (NormalInverseWishart_mu d) = [1%nat] -> nd_shape (NormalInverseWishart_psi d) = [1%nat; 1%nat] ->
     nd_shape (NormalInverseWishart_kappa d) = [] ->
     returns (NormalInverseWishart_sample_mean G entries advance from_seed d k rv rs) w (fun r _ => nd_shape (fst r) = [k])).
Proof.
  intros G entries advance from_seed k rv rs w Hk. split.
  - intros. eapply nig_nd_one; eauto.
  - intros. now apply niw_one.
Qed.

Example C61_case_one : let d := mkNormalInverseWishart (mkNd [1%nat] (fun _ => 0)) (sc 4) (sc 5) (mkNd [1%nat; 1%nat] (fun _ => 1)) in
  nd_shape (NormalInverseWishart_mu d) = [1%nat] /\ nd_shape (NormalInverseWishart_psi d) = [1%nat; 1%nat].
Proof. simpl; auto. Qed.

Print Assumptions C61_one_dimension.

(** ... but NormalWishart cannot be sampled at all ([inv] rejects arrays without rows and columns) ... *)
Theorem C61_one_dimension_wishart_refuted :
  forall (G : Type) (entries : request (nd R) -> G -> list nat -> R) advance from_seed inv d k rv rs (w : @world R G),
  (forall a, (length (nd_shape a) < 2)%nat -> inv a = Raise LinAlgError) ->
  nd_shape (NormalWishart_W d) = [1%nat; 1%nat] -> nd_shape (NormalWishart_lam d) = [] ->
  raises (NormalWishart_sample_mean G entries advance from_seed inv d k rv rs) w LinAlgError.
Proof. intros G entries advance from_seed. exact (nw_one entries advance from_seed). Qed.

Example C61_case_one_wishart :
  let inv := fun a : nd R => if Nat.ltb (length (nd_shape a)) 2 then Raise LinAlgError else Ok a in
  forall a, (length (nd_shape a) < 2)%nat -> inv a = Raise LinAlgError.
Proof. intros inv a H. unfold inv. apply PeanoNat.Nat.ltb_lt in H. now rewrite H. Qed.

Print Assumptions C61_one_dimension_wishart_refuted.

(** ... and for size 0, where np.stack has nothing to stack. *)
Theorem C61_no_samples_refuted :
  forall (G : Type) (entries : request (nd R) -> G -> list nat -> R) advance from_seed n rv rs (w : @world R G), (2 <= n)%nat ->
  (forall d D, NormalInverseGamma_delta_inverse d = Some D -> nd_shape D = [n; n] ->
     nd_shape (NormalInverseGamma_alpha d) = [] -> nd_shape (NormalInverseGamma_beta d) = [] ->
     raises (NormalInverseGamma_sample_beta G entries advance from_seed d 0 rv rs) w (ValueError "need at least one array to stack")) /\
  (forall d, nd_shape (NormalInverseWishart_psi d) = [n; n] -> nd_shape (NormalInverseWishart_kappa d) = [] ->
     raises (NormalInverseWishart_sample_mean G entries advance from_seed d 0 rv rs) w (ValueError "need at least one array to stack")).
Proof.
  intros G entries advance from_seed n rv rs w Hn. split.
  - intros. eapply nig_nd_empty; eauto.
  - intros. eapply niw_empty; eauto.
Qed.

Print Assumptions C61_no_samples_refuted.
