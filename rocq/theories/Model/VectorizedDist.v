(** The distributions behind a Dirichlet: distributions.py:129-140 and 161-166,
    with what scipy.stats.dirichlet does for them.

    Random numbers: what numpy's sampler computes from a generator state, and the
    state it leaves, is the argument [draw].  Not modelled: dtypes, negative sizes. *)

From Coq Require Import Reals Bool String List.
From Verif Require Import Model.Num Model.Py Model.NdArray Model.DirichletModel Model.PlotModel Model.Sampling.
Import ListNotations.
Local Open Scope R_scope.

(** External: scipy/stats/_multivariate.py, _dirichlet_check_parameters, run by
    [stats.dirichlet(alpha)]: np.min(alpha) <= 0 and alpha.ndim != 1 raise (as
    does np.min of an empty array) *)
Definition dirichlet_frozen (a : nd R) : res (nd R) :=
  match map (nd_entry a) (indices (nd_shape a)) with
  | [] => Raise (ValueError "zero-size array to reduction operation minimum which has no identity")
  | l =>
      if existsb (fun x => if Rle_dec x 0 then true else false) l then Raise (ValueError "All parameters must be greater than 0")
      else if Nat.eqb (List.length (nd_shape a)) 1 then Ok a
      else Raise (ValueError "Parameter vector 'a' must be one dimensional")
  end.

(** External: _squeeze_output drops all dimensions of size 1 *)
Fixpoint unsqueeze (s i : list nat) : list nat :=
  match s with
  | [] => []
  | 1%nat :: s' => 0%nat :: unsqueeze s' i
  | _ :: s' => hd 0%nat i :: unsqueeze s' (tl i)
  end.
Definition squeeze_output (a : nd R) : nd R := mkNd (squeeze (nd_shape a)) (fun i => nd_entry a (unsqueeze (nd_shape a) i)).

(** External: dirichlet_frozen.mean: _squeeze_output(alpha / np.sum(alpha)) *)
Definition dirichlet_mean (a : nd R) : nd R :=
  squeeze_output (map1 (fun x => x / fold_right Rplus 0 (map (nd_entry a) (indices (nd_shape a)))) a).

(** The rows of an array ([for param in self.params]) *)
Definition rows (a : nd R) : res (list (nd R)) := elements (CArr a).

(** distributions.py:139-140 VectorizedDist.mean, with dist = stats.dirichlet (166) *)
Definition VectorizedDist_mean (params : nd R) : res (nd R) :=
  let* l := rows params in
  let* ms := sequence (map (fun p => rmap dirichlet_mean (dirichlet_frozen p)) l) in
  stack ms.

(** [d.dist.mean()]: distributions.py:161-166 *)
Definition Dirichlet_mean (d : Dirichlet R) : res (nd R) :=
  let* dd := Dirichlet_dist d in
  match dd with
  | One a => rmap dirichlet_mean (dirichlet_frozen a)
  | Vectorized a => VectorizedDist_mean a
  end.

(** numpy's [size] argument as a shape *)
Definition size_shape (s : size_arg) : list nat :=
  match s with Sz_None => [] | Sz_int n => [n] | Sz_tuple s => s end.

Section Rvs.
Variable G : Type.
Variable draw : nd R -> list nat -> G -> (list nat -> R) * G.

(** External: dirichlet_frozen.rvs(size): RandomState.dirichlet(alpha, size), of
    shape size + (K,); without a random_state it uses numpy's global state. *)
Definition dirichlet_rvs (size : list nat) (a : nd R) (g : G) : nd R * G :=
  let (e, g') := draw a size g in (mkNd (size ++ nd_shape a) e, g').

(** [self.dist(param).rvs(size=size) for param in params], in order *)
Fixpoint rvs_rows (size : list nat) (l : list (nd R)) (g : G) : res (list (nd R)) * G :=
  match l with
  | [] => (Ok [], g)
  | p :: l' =>
      match dirichlet_frozen p with
      | Raise e => (Raise e, g)
      | Ok p =>
          let (x, g1) := dirichlet_rvs size p g in
          let (r, g2) := rvs_rows size l' g1 in
          (rmap (cons x) r, g2)
      end
  end.

(** distributions.py:136-137 VectorizedDist.rvs; size defaults to 1.  It takes no random_state. *)
Definition VectorizedDist_rvs (size : option size_arg) (params : nd R) (g : G) : res (nd R) * G :=
  let size := match size with Some s => size_shape s | None => [1%nat] end in
  match rows params with
  | Raise e => (Raise e, g)
  | Ok l => let (r, g') := rvs_rows size l g in (let* xs := r in stack xs, g')
  end.
End Rvs.
