(** What [return_variance] may change, and what np.stack accepts. *)

From Coq Require Import List.
From Verif Require Import Model.Py Model.NdArray Model.Sampling.
Import ListNotations.

Section ReturnVariance.
Context {A G : Type}.

(** [mean rv] is a sampler called with [return_variance=rv], [variance] is the call of
    [sample_variance] with the same size and random state.  Asking for the variance changes
    neither the means, nor the exceptions, nor the random numbers used up; and the variance
    that comes back is the one [variance] would have given in the same state. *)
Definition only_adds_variance (mean : bool -> @samp A G (nd A * option (nd A))) (variance : @samp A G (nd A)) : Prop :=
  forall w,
  (forall e w', mean false w = (Raise e, w') <-> mean true w = (Raise e, w')) /\
  (forall m o w', mean false w = (Ok (m, o), w') <->
     o = None /\ exists v, mean true w = (Ok (m, Some v), w') /\ exists w'', variance w = (Ok v, w'')) /\
  (forall m o w', mean true w = (Ok (m, o), w') -> o <> None).

(** A sampler that raises whatever [sample_variance] raises, before anything else is drawn. *)
Definition raises_with (mean : bool -> @samp A G (nd A * option (nd A))) (variance : @samp A G (nd A)) : Prop :=
  forall rv w e w', variance w = (Raise e, w') -> mean rv w = (Raise e, w').

End ReturnVariance.

(** Arrays that can be stacked *)
Definition same_shapes {A} (l : list (nd A)) : Prop := forall a b, In a l -> In b l -> nd_shape a = nd_shape b.
