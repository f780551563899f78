(** Learning from one observation at a time: predict, observe, update. *)

From Coq Require Import Reals Permutation String.
From Coquelicot Require Import Coquelicot.
From Verif Require Import Model.Py Model.NdArray Model.DirichletModel Spec.Bayes.
From Coq Require Import List.
Import ListNotations.
Open Scope R_scope.

(** [update] and [predict] for each observation in turn: the state reached and
    the product of the probabilities given to the observations before they were seen. *)
Fixpoint one_by_one {D O : Type} (update : D -> O -> res D) (predict : D -> O -> res R) (d : D) (data : list O) : res (D * R) :=
  match data with
  | [] => Ok (d, 1)
  | o :: l =>
      let* p := predict d o in
      let* d' := update d o in
      let* ec := one_by_one update predict d' l in
      Ok (fst ec, p * snd ec)
  end.

(** Integrals over one and over two real parameters *)
Definition over1 (Fa Fb : (R -> Prop) -> Prop) (f : R -> R) (l : R) : Prop := is_RInt_gen f Fa Fb l.
Definition over2 (Fa Fb Ga Gb : (R -> Prop) -> Prop) (dom : R -> Prop) (f : R * R -> R) (l : R) : Prop :=
  exists inner : R -> R,
    (forall v, dom v -> is_RInt_gen (fun m => f (m, v)) Fa Fb (inner v)) /\ is_RInt_gen inner Ga Gb l.

(** The chain rule of probability, for every sequence of observations: predicting
    one at a time gives the whole sequence the probability it has under the prior
    [d] (the integral [I] over the parameter), whatever its order, and updating
    one at a time ends in the posterior of all observations together (on the
    parameters in [dom]). *)
Definition prequential {P D O : Type} (I : (P -> R) -> R -> Prop) (dens : D -> P -> R) (lik : P -> O -> R)
  (update : D -> O -> res D) (predict : D -> O -> res R) (dom : P -> Prop) (ok : D -> Prop) (obs : O -> Prop) : Prop :=
  forall (d : D) (data : list O), ok d -> Forall obs data ->
  exists e c, one_by_one update predict d data = Ok (e, c) /\ ok e /\ 0 < c /\
    I (fun t => likelihood lik data t * dens d t) c /\
    (forall t, dom t -> dens e t = dens d t * likelihood lik data t / c) /\
    (forall data', Permutation data data' -> exists e', one_by_one update predict d data' = Ok (e', c)).

Definition anywhere {P : Type} (_ : P) : Prop := True.

(** The parameters of a Dirichlet (or Dirichlet-multinomial) whose alpha is a flat array of [S n] numbers *)
Definition alphas (n : nat) (o : outcome R) : list R :=
  match o with OVal (CArr a) => map (fun i => nd_entry a [i]) (seq 0 (S n)) | _ => [] end.
Definition dirichlet_ok (n : nat) (d : Dirichlet R) : Prop :=
  exists a, Dirichlet_alpha d = OVal (CArr a) /\ nd_shape a = [S n] /\ Forall (fun x => 0 < x) (alphas n (Dirichlet_alpha d)).
(** The prior handed to the functions, which take its alpha *)
Definition with_alpha (f : container R -> res (Dirichlet R)) (d : Dirichlet R) : res (Dirichlet R) :=
  match Dirichlet_alpha d with OVal c => f c | ORows _ => Raise (TypeError "not a flat array"%string) end.
