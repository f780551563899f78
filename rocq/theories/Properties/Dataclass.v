(** C99: the constructors and [==] of the distribution classes. *)

From Coq Require Import ZArith Bool String Permutation Reals Lra Lia.
From Verif Require Import Model.Num Model.Py Model.Table Model.NdArray Model.SliceModel Model.Dataclass.
From Verif Require Import Spec.Dataclass Proofs.Dataclass.
From Coq Require Import List.
Import ListNotations.
Open Scope string_scope.
Open Scope list_scope.

Definition number (address : nat) (r : R) : value := VParam address (PArr (scalar r)).

(** C99: calling a class.  A well formed call gives each field its positional argument, its
    keyword or its default, in the order of the class; NormalInverseGamma in addition needs
    exactly one of delta_inverse and nu (otherwise ValueError); every other call is a
    TypeError. *)
Theorem C99_constructor :
  forall c fields args kw, In (c, fields) dataclasses -> NoDup (map fst kw) ->
  (well_formed fields args kw ->
   exists vs, length vs = length fields /\
     (forall j name d, nth_error fields j = Some (name, d) -> exists v, nth_error vs j = Some (name, v) /\ receives args kw j name d v) /\
     (one_precision c vs -> instantiate c args kw = Ok (mkDobj c vs)) /\
     (~ one_precision c vs -> exists m, instantiate c args kw = Raise (ValueError m))) /\
  (~ well_formed fields args kw -> exists m, instantiate c args kw = Raise (TypeError m)).
Proof. exact instantiate_spec. Qed.

(** Geometric(0.5), NormalInverseGamma(0, 1, beta=1, nu=1), Beta(1, 1, alpha=1) *)
Example C99_case_constructor :
  instantiate "Geometric" [number 1 (/ 2)] [] = Ok (mkDobj "Geometric" [("p", number 1 (/ 2)); ("one_start", VParam 0 (PFlag true))]) /\
  instantiate "NormalInverseGamma" [number 1 0; number 2 1] [("nu", number 4 1); ("beta", number 3 1)] =
    Ok (mkDobj "NormalInverseGamma" [("mu", number 1 0); ("alpha", number 2 1); ("beta", number 3 1); ("delta_inverse", VNone); ("nu", number 4 1)]) /\
  (exists m, instantiate "Beta" [number 1 1; number 2 1] [("alpha", number 3 1)] = Raise (TypeError m)) /\
  (exists m, instantiate "NormalInverseGamma" [number 1 0; number 2 1; number 3 1] [] = Raise (ValueError m)).
Proof. split; [reflexivity|]. split; [reflexivity|]. split; eexists; reflexivity. Qed.

Print Assumptions C99_constructor.

(** C99: the order of the fields is the order of the docstring: the first [k] arguments of
    the docstring can be given without their names, the others by name in any order, with
    the same result for every [k]. *)
Theorem C99_documented_order :
  forall c names values k kw,
  In (c, names) documented -> length values = length names -> Permutation kw (skipn k (combine names values)) ->
  one_precision c (combine names values) ->
  instantiate c (firstn k values) kw = Ok (mkDobj c (combine names values)).
Proof. exact construct_documented. Qed.

(** StudentT(mu, sigma, nu=nu); every class of the module is documented *)
Example C99_case_documented : In ("StudentT", ["mu"; "sigma"; "nu"]) documented /\
  Permutation [("nu", number 3 9)] (skipn 2 (combine ["mu"; "sigma"; "nu"] [number 1 5; number 2 2; number 3 9])) /\
  map fst documented = map fst dataclasses /\ length documented = 38%nat.
Proof. split; [unfold documented; simpl; tauto|]. split; [reflexivity|]. split; reflexivity. Qed.

Print Assumptions C99_documented_order.

(** C99: exactly the arguments documented as optional may be left out, and then have their
    documented values; leaving out any other is a TypeError. *)
Theorem C99_defaults :
  forall c names kw, In (c, names) documented -> NoDup (map fst kw) -> incl (map fst kw) names ->
  ((forall k, In k names -> ~ In k (map fst kw) -> exists v, In (c, k, v) (optional 0)) ->
   exists vs, map fst vs = names /\
     (forall k v, In (k, v) vs -> In (k, v) kw \/ ~ In k (map fst kw) /\ In (c, k, v) (optional 0)) /\
     (one_precision c vs -> instantiate c [] kw = Ok (mkDobj c vs)) /\
     (~ one_precision c vs -> exists m, instantiate c [] kw = Raise (ValueError m))) /\
  ((exists k, In k names /\ ~ In k (map fst kw) /\ forall v, ~ In (c, k, v) (optional 0)) ->
   exists m, instantiate c [] kw = Raise (TypeError m)).
Proof. exact construct_defaults. Qed.

(** BetaGeometric(alpha=1, beta=1): one_start is left out, and may be *)
Example C99_case_defaults :
  In ("BetaGeometric", ["alpha"; "beta"; "one_start"]) documented /\
  (forall k, In k ["alpha"; "beta"; "one_start"] -> ~ In k (map fst [("alpha", number 1 1); ("beta", number 2 1)]) ->
   exists v, In ("BetaGeometric", k, v) (optional 0)) /\
  instantiate "BetaGeometric" [] [("alpha", number 1 1); ("beta", number 2 1)] =
    Ok (mkDobj "BetaGeometric" [("alpha", number 1 1); ("beta", number 2 1); ("one_start", VParam 0 (PFlag true))]).
Proof.
  split; [unfold documented; simpl; tauto|]. split; [|reflexivity].
  intros k [<-|[<-|[<-|[]]]] H; [destruct H; simpl; tauto|destruct H; simpl; tauto|].
  exists (VParam 0 (PFlag true)). right. left. reflexivity.
Qed.

Print Assumptions C99_defaults.

(** C99: [==] of instances whose fields are numbers, flags, lists of numbers or None never
    raises, and is true exactly for instances of one class with the same parameters; the
    bounds for plotting do not take part. *)
Theorem C99_equality :
  forall o o' xs ys, Forall2 is_plain (map snd (d_values o)) xs -> Forall2 is_plain (map snd (d_values o')) ys ->
  (d_class o = d_class o' -> map fst (d_values o) = map fst (d_values o')) -> coherent o o' ->
  exists b, eq_objects o o' = Ok b /\ (b = true <-> d_class o = d_class o' /\ Forall2 same_plain xs ys).
Proof. exact eq_objects_plain. Qed.

(** tests/test_distributions.py:188: two numbers at two addresses *)
Example C99_case_equality :
  Forall2 is_plain (map snd (d_values (mkDobj "Poisson" [("lam", number 1 2)]))) [Number 2] /\
  coherent (mkDobj "Poisson" [("lam", number 1 2)]) (mkDobj "Poisson" [("lam", number 2 2)]).
Proof.
  split; [repeat constructor; eexists; reflexivity|].
  intros i p q [H1|[H1|[]]] [H2|[H2|[]]]; injection H1 as <- <-; injection H2; intros <-; try discriminate; reflexivity.
Qed.

Print Assumptions C99_equality.

(** C99: an instance is equal to itself, whatever its fields are. *)
Theorem C99_reflexive : forall o, eq_objects o o = Ok true.
Proof. exact eq_objects_self. Qed.

Example C99_case_reflexive : exists m,
  eq_objects (mkDobj "Beta" [("alpha", VParam 1 (PArr (mkNd [2%nat] (fun _ => 1%R)))); ("beta", number 2 1)])
             (mkDobj "Beta" [("alpha", VParam 3 (PArr (mkNd [2%nat] (fun _ => 1%R)))); ("beta", number 4 1)]) = Raise (ValueError m).
Proof. eexists. reflexivity. Qed.

Print Assumptions C99_reflexive.

(** C99, refuted for vectors: instances whose first field is a vector of length at least two
    cannot be compared, even with an exact copy: [==] raises a ValueError. *)
Theorem C99_vectors_refuted :
  forall c name n f g i j rest rest', (2 <= n)%nat -> i <> j ->
  exists m, eq_objects (mkDobj c ((name, VParam i (PArr (mkNd [n] f))) :: rest)) (mkDobj c ((name, VParam j (PArr (mkNd [n] g))) :: rest')) = Raise (ValueError m).
Proof. exact eq_objects_vectors. Qed.

Example C99_case_vectors : (2 <= 3)%nat /\ 1%nat <> 2%nat.
Proof. lia. Qed.

Print Assumptions C99_vectors_refuted.

(** C99: a field that is a list in one instance and an array in the other: the comparison does
    not depend on the order, decides for one element each, is false if there is nothing to
    compare, and raises as soon as either has two elements, whatever they are. *)
Theorem C99_list_with_vector :
  forall l n f i j, i <> j ->
  let compare := eq_value (VParam i (PList l)) (VParam j (PArr (mkNd [n] f))) in
  eq_value (VParam j (PArr (mkNd [n] f))) (VParam i (PList l)) = compare /\
  (length l = 1%nat -> n = 1%nat -> exists b, compare = Ok b /\ (b = true <-> l = [f [0%nat]])) /\
  ((length l <= 1)%nat -> (n <= 1)%nat -> (length l = 0 \/ n = 0)%nat -> compare = Ok false) /\
  ((2 <= length l)%nat \/ (2 <= n)%nat -> exists m, compare = Raise (ValueError m)).
Proof. exact eq_list_vector. Qed.

(** Dirichlet([1, 2, 3]) against Dirichlet(np.array([1, 2, 3])) *)
Example C99_case_list : exists m,
  eq_objects (mkDobj "Dirichlet" [("alpha", VParam 1 (PList [1; 2; 3]%R))])
             (mkDobj "Dirichlet" [("alpha", VParam 2 (PArr (mkNd [3%nat] (fun i => nth (hd 0%nat i) [1; 2; 3]%R 0%R))))]) = Raise (ValueError m).
Proof. eexists. reflexivity. Qed.

Print Assumptions C99_list_with_vector.

(** C99: ... but they can be compared one index at a time: [o[k] == o'[k]] never raises and is
    true exactly if the k-th parameters agree. *)
Theorem C99_indexed :
  forall n k o o' fresh fresh', (k < n)%nat ->
  Forall (number_or_vector n) (map snd (d_values o)) -> Forall (number_or_vector n) (map snd (d_values o')) ->
  d_class o = d_class o' -> length (d_values o) = length (d_values o') -> (fresh + length (d_values o) <= fresh')%nat ->
  exists b, eq_objects (index_object fresh (KInt (Z.of_nat k)) o) (index_object fresh' (KInt (Z.of_nat k)) o') = Ok b /\
    (b = true <-> Forall2 (fun v w => component k v = component k w) (map snd (d_values o)) (map snd (d_values o'))).
Proof. exact eq_objects_indexed. Qed.

Example C99_case_indexed :
  Forall (number_or_vector 2) (map snd (d_values (mkDobj "Beta" [("alpha", VParam 1 (PArr (mkNd [2%nat] (fun _ => 1%R)))); ("beta", number 2 1)]))).
Proof. repeat constructor; eexists; [right|left]; eexists; reflexivity. Qed.

Print Assumptions C99_indexed.
