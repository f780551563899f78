(** What is asked of the samplers: where their randomness comes from, the shape of
    their results, and the law of the numbers they return. *)

From Coq Require Import Reals ZArith String List.
From Verif Require Import Model.Num Model.Py Model.Dists Model.ScipyDist Model.NdArray Model.Sampling.
From Verif Require Import Spec.Densities.
Import ListNotations.

(** The shape a caller asks for with [size] *)
Definition size_shape (s : size_arg) : list nat :=
  match s with Sz_None => [] | Sz_int n => [n] | Sz_tuple s => s end.

Section Randomness.
Context {A G : Type}.
Variable advance : request (nd A) -> G -> G.
Variable from_seed : Z -> G.

(** Consecutive use of one generator: each draw starts in the state the one before
    it left. *)
Inductive chain : G -> list (request (nd A) * G) -> G -> Prop :=
| chain_nil g : chain g [] g
| chain_cons q g l g' : chain (advance q g) l g' -> chain g ((q, g) :: l) g'.

(** A generator that does not come back to a state it was in. *)
Definition never_repeats : Prop := forall g l g', chain g l g' -> l <> [] -> g' <> g.

(** No two draws start from the same generator state. *)
Definition distinct_draws (l : list (request (nd A) * G)) : Prop := NoDup (map snd l).

(** The draws made between two worlds *)
Definition draws (w w' : @world A G) (l : list (request (nd A) * G)) : Prop := w_log w' = w_log w ++ l.

(** Called with a generator: one stream, used up in order, nothing else touched. *)
Definition threads {T} (m : @samp A G T) : Prop := forall w r w', m w = (r, w') ->
  w_global w' = w_global w /\
  exists l, draws w w' l /\ chain (w_generator w) l (w_generator w').

(** Called with an integer: every draw starts from the same freshly seeded state. *)
Definition reseeds {T} (seed : Z) (m : @samp A G T) : Prop := forall w r w', m w = (r, w') ->
  w_global w' = w_global w /\ w_generator w' = w_generator w /\
  exists l, draws w w' l /\ Forall (fun e => snd e = from_seed seed) l.

(** No two draws of a call share their randomness. *)
Definition independent {T} (m : @samp A G T) : Prop := forall w r w' l,
  m w = (r, w') -> draws w w' l -> distinct_draws l.

End Randomness.

Local Open Scope R_scope.

(** The density of one draw: of entry [i] of the sample a request asks for.
    (Requests for vectors and matrices have no density of one entry.) *)
Definition request_pdf (q : request (nd R)) (i : list nat) (x : R) : R :=
  match q with
  | Q_beta a b _ => pdf (S_beta (at_index i a) (at_index i b)) x
  | Q_gamma a s _ => pdf (S_gamma_scale (at_index i a) (at_index i s)) x
  | Q_invgamma a s _ => pdf (S_invgamma_scale (at_index i a) (at_index i s)) x
  | Q_norm m s _ => pdf (S_norm (at_index i m) (at_index i s)) x
  | _ => 0
  end.
(** The mass function of entry [i]; stats.geom counts from 1. *)
Definition request_pmf (q : request (nd R)) (i : list nat) (k : Z) : R :=
  match q with
  | Q_geom p _ => pmf (S_geom_loc (at_index i p) 0) k
  | _ => 0
  end.

(** Sampling by inversion: an inverse gamma variate is the inverse of the gamma
    variate with the inverse scale, from the same random numbers. *)
Definition inverts_gamma {G} (entries : request (nd R) -> G -> list nat -> R) : Prop :=
  forall a s s' k g i, nd_shape s = [] -> nd_shape s' = [] -> nd_entry s' [] = / nd_entry s [] ->
  entries (Q_invgamma a s (Some [k])) g i = / entries (Q_gamma a s' (Some [k])) g i.

(** numpy's multivariate normal: mean + F(cov) z with z standard normal numbers
    that depend on the generator state only, and F(cov) a square root of cov, so
    that F(v cov) = sqrt v F(cov). *)
Definition affine_normal {G} (n : nat) (entries : request (nd R) -> G -> list nat -> R) : Prop :=
  exists (F : nd R -> nat -> nat -> R) (z : G -> nat -> R),
    (forall mean cov g j, (j < n)%nat -> nd_shape cov = [n; n] ->
       entries (Q_multivariate_normal mean cov 1) g [j]
       = nd_entry mean [j] + fold_right Rplus 0 (map (fun t => F cov j t * z g t) (seq 0 n))) /\
    (forall v cov cov' j t, 0 <= v -> nd_shape cov = [n; n] -> nd_shape cov' = [n; n] ->
       (forall a b, (a < n)%nat -> (b < n)%nat -> nd_entry cov' [a; b] = v * nd_entry cov [a; b]) ->
       (j < n)%nat -> (t < n)%nat -> F cov' j t = sqrt v * F cov j t).

(** The call returns, and its result satisfies [P]. *)
Definition returns {A G T} (m : @samp A G T) (w : @world A G) (P : T -> @world A G -> Prop) : Prop :=
  exists a w', m w = (Ok a, w') /\ P a w'.
(** The call raises [e]. *)
Definition raises {A G T} (m : @samp A G T) (w : @world A G) (e : exn) : Prop :=
  exists w', m w = (Raise e, w').

(** Index of a matrix entry in a Wishart sample: scipy drops the sample axis when size is 1 *)
Definition at_draw (k i r c : nat) : list nat := if Nat.eqb k 1 then [r; c] else [i; r; c].

(** np.linalg.inv: what it returns has the shape it was given. *)
Definition inv_shape {A} (inv : nd A -> res (nd A)) : Prop := forall a b, inv a = Ok b -> nd_shape b = nd_shape a.
