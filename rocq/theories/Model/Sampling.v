(** The sampling code: [sample_variance], [sample_mean] and [sample_beta] of
    /repo/conjugate/distributions.py and [rvs] of _beta_geometric.py and
    _compound_gamma.py.

    Random numbers come from generator states.  What numbers a scipy sampler
    computes from a state, and which state it leaves, are arguments
    ([entries], [advance], [from_seed]) about which nothing is assumed here.
    Which state each call starts from, which shape it returns and when it raises
    are modelled.  The field [w_log] is a ghost: the requests made so far, each
    with the state it was answered from.
    Not modelled: dtypes; scipy's checks of parameter values (a negative scale,
    a matrix that is not positive definite); negative sizes. *)

From Coq Require Import ZArith Bool String List.
From Verif Require Import Model.Num Model.Py Model.Dists Model.Table Model.NdArray Model.MatrixModel.
Import ListNotations.
Local Open Scope num_scope.

(** distributions.py:1101-1116 *)
Record Wishart M := mkWishart { Wishart_nu : M; Wishart_V : M }.
(** distributions.py:1119-1136 *)
Record NormalWishart M := mkNormalWishart
  { NormalWishart_mu : M; NormalWishart_lam : M; NormalWishart_W : M; NormalWishart_nu : M }.
Arguments mkWishart {M}. Arguments Wishart_nu {M}. Arguments Wishart_V {M}.
Arguments mkNormalWishart {M}. Arguments NormalWishart_mu {M}. Arguments NormalWishart_lam {M}.
Arguments NormalWishart_W {M}. Arguments NormalWishart_nu {M}.
(** distributions.py:1138-1140 *)
Definition NormalWishart_wishart {M} (d : NormalWishart M) : Wishart M :=
  mkWishart (NormalWishart_nu d) (NormalWishart_W d).

(** The [random_state] argument: None (numpy's global state), an integer seed, or
    a Generator / RandomState object owned by the caller. *)
Inductive random_state := RS_None | RS_int (seed : Z) | RS_generator.

(** The [size] argument of [rvs] *)
Inductive size_arg := Sz_None | Sz_int (n : nat) | Sz_tuple (s : list nat).
(** The Python expression [size or ()], as a shape *)
Definition size_or_empty (s : size_arg) : list nat :=
  match s with
  | Sz_None => []
  | Sz_int O => []
  | Sz_int n => [n]
  | Sz_tuple s => s
  end.

(** Calls of scipy samplers made by the library, with their [size]. *)
Inductive request (M : Type) :=
| Q_beta (a b : M) (size : option (list nat))
| Q_geom (p : M) (size : option (list nat))
| Q_gamma (a scale : M) (size : option (list nat))
| Q_invgamma (a scale : M) (size : option (list nat))
| Q_norm (loc scale : M) (size : option (list nat))
| Q_multivariate_normal (mean cov : M) (size : nat)
| Q_invwishart (df scale : M) (size : nat)
| Q_wishart (df scale : M) (size : nat).
Arguments Q_beta {M}. Arguments Q_geom {M}. Arguments Q_gamma {M}. Arguments Q_invgamma {M}.
Arguments Q_norm {M}. Arguments Q_multivariate_normal {M}. Arguments Q_invwishart {M}. Arguments Q_wishart {M}.

(** ** scipy's rules for the shape of a sample (external, from scipy 1.x)

    scipy/stats/_distn_infrastructure.py, rv_generic._argcheck_rvs: the
    parameters are broadcast and leading dimensions of size 1 dropped; without
    [size] that is the shape, with [size] it must fit. *)
Fixpoint squeeze_left (s : list nat) : list nat :=
  match s with 1%nat :: s' => squeeze_left s' | _ => s end.

(** on reversed shapes: a parameter dimension is 1 or the dimension of [size] *)
Fixpoint dims_ok (params size : list nat) : bool :=
  match params, size with
  | [], _ => true
  | c :: ps, [] => Nat.eqb c 1 && dims_ok ps []
  | c :: ps, d :: ss => (Nat.eqb c 1 || Nat.eqb c d) && dims_ok ps ss
  end.

Fixpoint broadcast_all (l : list (list nat)) : option (list nat) :=
  match l with
  | [] => Some []
  | s :: l' => match broadcast_all l' with Some u => broadcast_shapes s u | None => None end
  end.

Definition rvs_shape (params : list (list nat)) (size : option (list nat)) : res (list nat) :=
  match broadcast_all params with
  | None => Raise (ValueError "shape mismatch: objects cannot be broadcast to a single shape")
  | Some b =>
      let b := squeeze_left b in
      match size with
      | None => Ok b
      | Some s =>
          let padded := repeat 1%nat (List.length b - List.length s) ++ s in
          if dims_ok (rev b) (rev padded) then Ok padded
          else Raise (ValueError "size does not match the broadcast shape of the parameters")
      end
  end.

(** scipy/stats/_multivariate.py, _squeeze_output: all dimensions of size 1 are dropped *)
Definition squeeze (s : list nat) : list nat := filter (fun d => negb (Nat.eqb d 1)) s.

(** _multivariate.py, multivariate_normal_gen._process_parameters *)
Definition mvn_dim (mean cov : list nat) : res nat :=
  if Nat.eqb (size mean) 1 then
    if Nat.eqb (size cov) 1 then Ok 1%nat
    else Raise (ValueError "cannot reshape array")
  else match mean, cov with
       | [n], [] => Ok n
       | [n], [m] => if Nat.eqb n m then Ok n else Raise (ValueError "operands could not be broadcast together")
       | [n], [m; m'] => if Nat.eqb m n && Nat.eqb m' n then Ok n
                         else Raise (ValueError "Array 'cov' must be square and match the mean")
       | [_], _ => Raise (ValueError "Array 'cov' must be at most two-dimensional")
       | _, _ => Raise (ValueError "Array 'mean' must be a vector")
       end.

(** _multivariate.py, wishart_gen._process_parameters *)
Definition wishart_dim (scale : list nat) : res nat :=
  match scale with
  | [] => Ok 1%nat
  | [n] => Ok n
  | [n; m] => if Nat.eqb n m then Ok n
              else Raise (ValueError "Array 'scale' must be square if it is two dimensional")
  | _ => Raise (ValueError "Array 'scale' must be at most two-dimensional")
  end.

Definition request_shape {A} (q : request (nd A)) : res (list nat) :=
  match q with
  | Q_beta a b s => rvs_shape [nd_shape a; nd_shape b] s
  | Q_geom p s => rvs_shape [nd_shape p] s
  | Q_gamma a c s | Q_invgamma a c s | Q_norm a c s => rvs_shape [nd_shape a; nd_shape c] s
  | Q_multivariate_normal m c k =>
      let* n := mvn_dim (nd_shape m) (nd_shape c) in Ok (squeeze [k; n])
  | Q_invwishart _ c k | Q_wishart _ c k =>
      let* n := wishart_dim (nd_shape c) in Ok (squeeze [k; n; n])
  end.

Section Arrays.
Context {A : Type} {NA : Num A}.

(** a[None, ...] *)
Definition new_axis (a : nd A) : nd A := mkNd (1%nat :: nd_shape a) (fun i => nd_entry a (tl i)).

(** [for v in a]: the members along the first axis *)
Definition iterate (a : nd A) : res (list (nd A)) :=
  match nd_shape a with
  | [] => Raise (TypeError "iteration over a 0-d array")
  | n :: s => Ok (map (fun k => mkNd s (fun i => nd_entry a (k :: i))) (seq 0 n))
  end.

Definition shape_eqb (s t : list nat) : bool := if list_eq_dec Nat.eq_dec s t then true else false.

(** np.stack(l) *)
Definition stack (l : list (nd A)) : res (nd A) :=
  match l with
  | [] => Raise (ValueError "need at least one array to stack")
  | a :: _ =>
      if forallb (fun b => shape_eqb (nd_shape b) (nd_shape a)) l then
        Ok (mkNd (List.length l :: nd_shape a)
                 (fun i => match i with
                           | k :: i' => nd_entry (nth k l a) i'
                           | [] => nd_entry a [] end))
      else Raise (ValueError "all input arrays must have the same shape")
  end.

End Arrays.

Section Sampling.
Context {A : Type} {NA : Num A}.
Variable G : Type.
Variable entries : request (nd A) -> G -> list nat -> A.
Variable advance : request (nd A) -> G -> G.
Variable from_seed : Z -> G.

Record world := mkWorld { w_global : G; w_generator : G; w_log : list (request (nd A) * G) }.

(** A Python computation that may draw random numbers and may raise *)
Definition samp (T : Type) : Type := world -> res T * world.
Definition ret {T} (r : res T) : samp T := fun w => (r, w).
Definition sbind {T U} (m : samp T) (f : T -> samp U) : samp U :=
  fun w => let (r, w') := m w in
           match r with Ok a => f a w' | Raise e => (Raise e, w') end.
Notation "'do' x '<-' m ';;' k" := (sbind m (fun x => k)) (at level 200, x pattern, m at level 100, k at level 200).

(** scipy's check_random_state: an integer makes a new generator, from that seed,
    at every call; None is numpy's global state. *)
Definition state_of (rs : random_state) (w : world) : G :=
  match rs with RS_None => w_global w | RS_int z => from_seed z | RS_generator => w_generator w end.
Definition leave (rs : random_state) (g : G) (entry : request (nd A) * G) (w : world) : world :=
  match rs with
  | RS_None => mkWorld g (w_generator w) (w_log w ++ [entry])
  | RS_int _ => mkWorld (w_global w) (w_generator w) (w_log w ++ [entry])
  | RS_generator => mkWorld (w_global w) g (w_log w ++ [entry])
  end.
Definition rvs (rs : random_state) (q : request (nd A)) : samp (nd A) := fun w =>
  match request_shape q with
  | Raise e => (Raise e, w)
  | Ok s => let g := state_of rs w in
            (Ok (mkNd s (entries q g)), leave rs (advance q g) (q, g) w)
  end.

(** [f(x) for x in l], evaluated in order *)
Fixpoint for_each {T} (f : nd A -> samp T) (l : list (nd A)) : samp (list T) :=
  match l with
  | [] => ret (Ok [])
  | x :: l' => do y <- f x;; do ys <- for_each f l';; ret (Ok (y :: ys))
  end.

(** [return (mean, variance) if return_variance else mean]: the second component
    is None when it is not returned. *)
Definition with_variance (return_variance : bool) (mean variance : nd A) : samp (nd A * option (nd A)) :=
  ret (Ok (mean, if return_variance then Some variance else None)).

(** *** NormalInverseGamma *)

(** distributions.py:590-592 and 594-605; InverseGamma.dist is
    stats.invgamma(a=alpha, scale=beta), 541-543 *)
Definition NormalInverseGamma_sample_variance (d : NormalInverseGamma (nd A) (nd A) (nd A))
  (k : nat) (rs : random_state) : samp (nd A) :=
  let ig := NormalInverseGamma_inverse_gamma d in
  rvs rs (Q_invgamma (InverseGamma_alpha ig) (InverseGamma_beta ig) (Some [k])).

(** distributions.py:607-609; [variance / None] raises when [nu] is None *)
Definition NormalInverseGamma_sample_beta_1d (d : NormalInverseGamma (nd A) (nd A) (nd A))
  (variance : nd A) (k : nat) (rs : random_state) : samp (nd A) :=
  match NormalInverseGamma_nu d with
  | None => ret (Raise (TypeError "unsupported operand type(s) for /: 'float' and 'NoneType'"))
  | Some nu =>
      do sigma <- ret (nsqrt (Ok variance / Ok nu));;
      rvs rs (Q_norm (NormalInverseGamma_mu d) sigma (Some [k]))
  end.

(** distributions.py:611-620 *)
Definition NormalInverseGamma_sample_beta_nd (d : NormalInverseGamma (nd A) (nd A) (nd A))
  (delta_inverse variance : nd A) (rs : random_state) : samp (nd A) :=
  do variance <- ret (transpose (transpose (Ok (new_axis delta_inverse)) * Ok variance));;
  do vs <- ret (iterate variance);;
  do l <- for_each (fun v => rvs rs (Q_multivariate_normal (NormalInverseGamma_mu d) v 1)) vs;;
  ret (stack l).

(** distributions.py:643-667 *)
Definition NormalInverseGamma_sample_beta (d : NormalInverseGamma (nd A) (nd A) (nd A))
  (k : nat) (return_variance : bool) (rs : random_state) : samp (nd A * option (nd A)) :=
  do variance <- NormalInverseGamma_sample_variance d k rs;;
  do beta <- match NormalInverseGamma_delta_inverse d with
             | None => NormalInverseGamma_sample_beta_1d d variance k rs
             | Some di => NormalInverseGamma_sample_beta_nd d di variance rs
             end;;
  with_variance return_variance beta variance.
(** distributions.py:622-641 *)
Definition NormalInverseGamma_sample_mean := NormalInverseGamma_sample_beta.

(** *** NormalGamma *)

(** distributions.py:1021-1034; Gamma.dist is stats.gamma(a=alpha, scale=1/beta), 245-247 *)
Definition NormalGamma_sample_variance (d : NormalGamma (nd A)) (k : nat) (rs : random_state) : samp (nd A) :=
  let g := NormalGamma_gamma d in
  do scale <- ret (nlit 1 / Ok (Gamma_beta g));;
  do draw <- rvs rs (Q_gamma (Gamma_alpha g) scale (Some [k]));;
  do precision <- ret (Ok (NormalGamma_lam d) * Ok draw);;
  ret (nlit 1 / Ok precision).

(** distributions.py:1057-1080 *)
Definition NormalGamma_sample_beta (d : NormalGamma (nd A)) (k : nat) (return_variance : bool)
  (rs : random_state) : samp (nd A * option (nd A)) :=
  do variance <- NormalGamma_sample_variance d k rs;;
  do sigma <- ret (nsqrt (Ok variance));;
  do beta <- rvs rs (Q_norm (NormalGamma_mu d) sigma (Some [k]));;
  with_variance return_variance beta variance.
(** distributions.py:1036-1055 *)
Definition NormalGamma_sample_mean := NormalGamma_sample_beta.

(** *** NormalInverseWishart and NormalWishart *)

(** The list comprehension and np.stack of distributions.py:1190-1197 and 1277-1284 *)
Definition stacked_means (mu variance : nd A) (rs : random_state) : samp (nd A) :=
  do vs <- ret (iterate variance);;
  do l <- for_each (fun cov => rvs rs (Q_multivariate_normal mu cov 1)) vs;;
  ret (stack l).

(** [if size == 1: variance = variance[None, ...]] (1164-1165, 1253-1254) *)
Definition pad_single (k : nat) (variance : nd A) : nd A :=
  if Nat.eqb k 1 then new_axis variance else variance.

(** distributions.py:1236-1256 *)
Definition NormalInverseWishart_sample_variance (d : NormalInverseWishart (nd A)) (k : nat)
  (rs : random_state) : samp (nd A) :=
  let iw := NormalInverseWishart_inverse_wishart d in
  do draw <- rvs rs (Q_invwishart (InverseWishart_nu iw) (InverseWishart_psi iw) k);;
  do variance <- ret (Ok draw / Ok (NormalInverseWishart_kappa d));;
  ret (Ok (pad_single k variance)).

(** distributions.py:1258-1289 *)
Definition NormalInverseWishart_sample_mean (d : NormalInverseWishart (nd A)) (k : nat)
  (return_variance : bool) (rs : random_state) : samp (nd A * option (nd A)) :=
  do variance <- NormalInverseWishart_sample_variance d k rs;;
  do mean <- stacked_means (NormalInverseWishart_mu d) variance rs;;
  with_variance return_variance mean variance.

(** distributions.py:1142-1167; [inv] is the argument, np.linalg.inv by default *)
Definition NormalWishart_sample_variance (inv : nd A -> res (nd A)) (d : NormalWishart (nd A)) (k : nat)
  (rs : random_state) : samp (nd A) :=
  let w := NormalWishart_wishart d in
  do draw <- rvs rs (Q_wishart (Wishart_nu w) (Wishart_V w) k);;
  do precision <- ret (Ok (NormalWishart_lam d) * Ok draw);;
  do variance <- ret (inv precision);;
  ret (Ok (pad_single k variance)).

(** distributions.py:1169-1202; [inv] is np.linalg.inv *)
Definition NormalWishart_sample_mean (inv : nd A -> res (nd A)) (d : NormalWishart (nd A)) (k : nat)
  (return_variance : bool) (rs : random_state) : samp (nd A * option (nd A)) :=
  do variance <- NormalWishart_sample_variance inv d k rs;;
  do mean <- stacked_means (NormalWishart_mu d) variance rs;;
  with_variance return_variance mean variance.

(** *** The two hand-written distributions *)

(** np.broadcast_to *)
Definition broadcast_to (s : list nat) (a : nd A) : nd A := mkNd s (fun i => at_index i a).
Definition cannot_broadcast : exn := ValueError "shape mismatch: objects cannot be broadcast to a single shape".

(** _beta_geometric.py:31-45 *)
Definition beta_geometric_rvs (a b : nd A) (one_start : bool) (size : size_arg) (rs : random_state) : samp (nd A) :=
  match broadcast_shapes (nd_shape a) (nd_shape b) with
  | None => ret (Raise cannot_broadcast)
  | Some s =>
      let a := broadcast_to s a in
      let b := broadcast_to s b in
      match broadcast_all [nd_shape a; nd_shape b; size_or_empty size] with
      | None => ret (Raise cannot_broadcast)
      | Some size =>
          do p <- rvs rs (Q_beta a b (Some size));;
          do result <- rvs rs (Q_geom p (Some size));;
          if one_start then ret (Ok result) else ret (Ok result - nlit 1)
      end
  end.

(** _compound_gamma.py:23-32; the second call has no [size] *)
Definition compound_gamma_rvs (a b q : nd A) (size : size_arg) (rs : random_state) : samp (nd A) :=
  match broadcast_all [nd_shape a; nd_shape b; nd_shape q] with
  | None => ret (Raise cannot_broadcast)
  | Some s =>
      let a := broadcast_to s a in
      let b := broadcast_to s b in
      let q := broadcast_to s q in
      match broadcast_all [nd_shape a; nd_shape b; nd_shape q; size_or_empty size] with
      | None => ret (Raise cannot_broadcast)
      | Some size =>
          do scale <- ret (nlit 1 / Ok q);;
          do random_b <- rvs rs (Q_gamma b scale (Some size));;
          do scale' <- ret (nlit 1 / Ok random_b);;
          rvs rs (Q_gamma a scale' None)
      end
  end.

End Sampling.
Arguments mkWorld {A G}. Arguments w_global {A G}. Arguments w_generator {A G}. Arguments w_log {A G}.
