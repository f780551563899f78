(** The figures of the documentation: what the programs draw on one Axes.

    matplotlib's legends, vertical lines, titles and line styles are left out; [release],
    [is_float], [show] and [f] are those of Model/Draw.v. *)

From Coq Require Import ZArith Bool String List Reals.
From Verif Require Import Model.Num Model.Py Model.ScipyDist Model.Table Model.NdArray Model.PyNum Model.SliceModel Model.PlotModel Model.Draw.
From Coq Require Import List.
Import ListNotations.
Open Scope R_scope.

(** Beta(alpha=.., beta=..) and the others of the pages, by their fields *)
Definition new_beta (alpha beta : nd R) : res object :=
  construct (mkClass "Beta" Continuous MaxOne) [("alpha", PArr alpha); ("beta", PArr beta)]%string.
Definition new_binomial (n p : nd R) : res object :=
  construct (mkClass "Binomial" Discrete (MaxOf "n")) [("n", PArr n); ("p", PArr p)]%string.

Section Figures.
Variable arctan2 : R -> R -> R.
Variable release : list nat.
Variable is_float : param R -> bool.
Variable show : R -> string.
Variable f : bool -> frozen R -> R -> R.

(** [plot_pdf(label=.., color=..)] and [plot_pmf], with the defaults of the other arguments *)
Definition shown (o : object) (cdf : bool) (st : style) : object * res (list axes_call) :=
  draw release is_float show f o cdf false false "o-" st.

(** docs/examples/plotting.md:32-33 and 49-50
<<
    for label, dist in zip(labels, dists):
        dist.set_bounds(-bound, bound).plot_pdf(label=label)
>>
    The objects afterwards and the calls on the Axes.  Simplified: the objects are different ones. *)
Fixpoint overlay (cdf : bool) (bound : R) (labels : list string) (dists : list object) : list object * res (list axes_call) :=
  match labels, dists with
  | label :: labels, dist :: dists =>
      let (dist, calls) := shown (set_bounds (- bound) bound dist) cdf (mkStyle (Some (LStr label)) None) in
      match calls with
      | Raise e => (dist :: dists, Raise e)
      | Ok calls => let (dists, rest) := overlay cdf bound labels dists in
                    (dist :: dists, let* rest := rest in Ok (calls ++ rest))
      end
  | _, _ => (dists, Ok [])
  end.
(** The two figures of the page; [plt.close()] in between makes a new Axes *)
Definition plotting_page (bound : R) (labels : list string) (dists : list object) : res (list axes_call) * res (list axes_call) :=
  let (dists, densities) := overlay false bound labels dists in
  (densities, snd (overlay true bound labels dists)).

(** docs/examples/vectorized-inputs.md:23-29 *)
Definition vectorized_page (N x : R) (alpha : R) (beta : nd R) (prior_label posterior_label : nat -> string) (colors : list string)
  : res (list axes_call) :=
  let* prior := new_beta (scalar alpha) beta in
  let* params := run_nd (Ufuncs_R arctan2) F_binomial_beta [scalar N; scalar x; scalar alpha; beta] in
  match params with
  | [a; b] =>
      let* posterior := new_beta a b in
      let* c1 := snd (shown prior false (mkStyle (Some (LCallable prior_label)) (Some colors))) in
      let* c2 := snd (shown posterior false (mkStyle (Some (LCallable posterior_label)) (Some colors))) in
      Ok (c1 ++ c2)
  | _ => arity_error
  end.

(** docs/examples/indexing.md:10-14 *)
Definition indexing_page (alpha : R) (beta : nd R) (idx : list Z) (label : nat -> string) : res (list axes_call) :=
  let* prior := new_beta (scalar alpha) beta in
  let* prior_subset := construct (o_class prior) (dist_getitem 0 (o_fields prior) (KList idx)) in
  snd (shown prior_subset false (mkStyle (Some (LCallable label)) None)).

(** docs/examples/binomial.md:57, 87-89: the left Axes; X is an array of one draw *)
Definition binomial_page_left (N X : R) (prior : R * R) : res (list axes_call) :=
  let draw_of := mkNd [1%nat] (fun _ => X) in
  let* params := run_nd (Ufuncs_R arctan2) F_binomial_beta [scalar N; draw_of; scalar (fst prior); scalar (snd prior)] in
  match params with
  | [a; b] =>
      let* posterior := new_beta a b in
      let* prior := new_beta (scalar (fst prior)) (scalar (snd prior)) in
      let* c1 := snd (shown posterior false (mkStyle (Some (LStr "posterior")) None)) in
      let* c2 := snd (shown prior false (mkStyle (Some (LStr "prior")) None)) in
      Ok (c1 ++ c2)
  | _ => arity_error
  end.
(** docs/examples/binomial.md:96-97: the first plot of the right Axes *)
Definition binomial_page_true (N p : R) (color : string) : res (list axes_call) :=
  let* true_dist := new_binomial (scalar N) (scalar p) in
  snd (shown true_dist false (mkStyle (Some (LStr "true distribution")) (Some [color]))).
End Figures.
