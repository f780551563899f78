(** C105: indexing grids of distributions with tuples. *)

From Coq Require Import ZArith Reals Lra Lia String Sorted.
From Verif Require Import Model.Num Model.Py Model.Table Model.NdArray Model.SliceModel Model.TupleKeys.
From Verif Require Import Spec.Defined Spec.Shapes Spec.Indexing Spec.TupleKeys Proofs.TupleKeys.
From Coq Require Import List.
Import ListNotations.
Open Scope R_scope.

(** C105: numpy takes exactly the acceptable keys; each place of the result is a place of
    the array the key denotes, and has its value. *)
Theorem C105_array : forall (A : Type) (a : nd A) (ks : list key_item),
  match nd_gettuple a ks with
  | Ok b => acceptable (nd_shape a) ks /\
      (forall i, within (nd_shape b) i <-> exists j, denotes (nd_shape a) ks i j) /\
      (forall i j, denotes (nd_shape a) ks i j -> within (nd_shape a) j /\ nd_entry b i = nd_entry a j)
  | Raise _ => ~ acceptable (nd_shape a) ks
  end.
Proof. exact @gettuple_array. Qed.

(** a[..., -1, None] of an array of 2 by 3 by 4: shape 2 by 3 by 1 *)
Example C105_array_case :
  exists b, nd_gettuple (mkNd [2; 3; 4]%nat (fun i => i)) [IDots; IInt (-1); INew] = Ok b /\ nd_shape b = [2; 3; 1]%nat /\
  nd_entry b [1; 2; 0]%nat = [1; 2; 3]%nat /\ denotes [2; 3; 4]%nat [IDots; IInt (-1); INew] [1; 2; 0]%nat [1; 2; 3]%nat.
Proof.
  eexists. split; [reflexivity|]. split; [reflexivity|]. split; [reflexivity|].
  apply reads_dots_more; [lia|]. apply reads_dots_more; [lia|]. apply reads_dots_end. apply reads_int; [split; [lia|right; reflexivity]|].
  apply reads_new, reads_end.
Qed.

Print Assumptions C105_array.

(** C105: a distribution whose parameters are numbers or arrays of one shape: member [i] of the
    indexed distribution is the member [j] of the original that the key denotes. *)
Theorem C105_distribution : forall (A : Type) (s : list nat) (ks : list key_item) (params : list (string * param A)),
  acceptable s ks -> Forall (fun p => grid_of s (snd p)) params ->
  exists t, (forall i, within t i <-> exists j, denotes s ks i j) /\
  Forall2 (fun p q => fst q = fst p /\ grid_of t (snd q) /\
                      (forall i j, denotes s ks i j -> at_place i (snd q) = at_place j (snd p)) /\
                      (forall b, snd p = PFlag b -> snd q = PFlag b))
    params (dist_gettuple params ks).
Proof. exact @gettuple_grid. Qed.

Example C105_distribution_case :
  let params := [("alpha"%string, PArr (mkNd [2; 3]%nat (fun i => INR (nth 0 i 0%nat)))); ("beta"%string, PArr (scalar 5)); ("one_start"%string, PFlag true)] in
  acceptable [2; 3]%nat [whole; IInt 2] /\ Forall (fun p => grid_of [2; 3]%nat (snd p)) params.
Proof.
  cbv zeta. split; [split; [discriminate|split; [simpl; lia|]]|].
  - cbn. apply suits_slice; [lia|]. apply suits_int; [simpl; lia|]. apply suits_dots_end, suits_end.
  - constructor; [right; reflexivity|]. constructor; [left; reflexivity|]. constructor; [exact Logic.I|constructor].
Qed.

Print Assumptions C105_distribution.

(** C105: any other key leaves the distribution as it was, without an error. *)
Theorem C105_unsuitable_unchanged : forall (A : Type) (s : list nat) (ks : list key_item) (params : list (string * param A)),
  ~ acceptable s ks -> Forall (fun p => grid_of s (snd p)) params -> dist_gettuple params ks = params.
Proof. exact @gettuple_unsuitable. Qed.

(** two Ellipses; three integers for two axes *)
Example C105_unsuitable_case : ~ acceptable [2; 3]%nat [IDots; IDots] /\ ~ acceptable [2; 3]%nat [IInt 0; IInt 0; IInt 0].
Proof.
  split; [intros (_ & H & _); simpl in H; lia|]. intros (_ & _ & H). cbn in H.
  inversion H; subst. match goal with K : suits _ _ |- _ => inversion K; subst end. match goal with K : suits [] _ |- _ => inversion K end.
Qed.

Print Assumptions C105_unsuitable_unchanged.

(** C105: for every element-wise function, the posterior of the indexed inputs is the posterior indexed. *)
Theorem C105_posterior : forall (A : Type) (NA : Num A) (U : Ufuncs A) (f : fn) (args : list (nd A)) (s : list nat) (ks : list key_item),
  length args = arity f -> Forall (fun a => nd_shape a = [] \/ nd_shape a = s) args -> acceptable s ks ->
  exists out out', run_nd U f args = Ok out /\
  run_nd U f (map (fun a => match nd_gettuple a ks with Ok b => b | Raise _ => a end) args) = Ok out' /\
  forall i j, denotes s ks i j -> map (at_index i) out' = map (at_index j) out.
Proof. exact @posterior_tuple. Qed.

Print Assumptions C105_posterior.

(** C105 is false when the parameters only broadcast to the shape of the grid: alpha of
    shape (2, 1) and beta of shape (2,) make a 2 by 2 grid, and the first column of it,
    dist[:, 0], pairs the second alpha with the second beta. *)
Theorem C105_broadcast_refuted :
  exists (a b a' b' : nd R) (ks : list key_item) (i j : list nat),
  joint [nd_shape a; nd_shape b] [2; 2]%nat /\ acceptable [2; 2]%nat ks /\ denotes [2; 2]%nat ks i j /\
  dist_gettuple [("alpha"%string, PArr a); ("beta"%string, PArr b)] ks = [("alpha"%string, PArr a'); ("beta"%string, PArr b')] /\
  at_index i a' = at_index j a /\ joint [nd_shape a'; nd_shape b'] [2]%nat /\ at_index i b' <> at_index j b.
Proof. exact broadcast_grid. Qed.

Print Assumptions C105_broadcast_refuted.

(** C105: lists take no tuples, so parameters that are lists stay as they are, beside arrays
    that are indexed, and without an error. *)
Theorem C105_lists_kept : forall (A : Type) (ks : list key_item) (params : list (string * param A)),
  Forall2 (fun p q => fst q = fst p /\ forall l, snd p = PList l -> snd q = PList l) params (dist_gettuple params ks).
Proof. exact @gettuple_lists. Qed.

(** Multinomial with n of shape (2,) and p a list, indexed with (1,) *)
Example C105_lists_case :
  exists n, dist_gettuple [("n"%string, PArr (mkNd [2]%nat (fun i => INR (nth 0 i 0%nat)))); ("p"%string, PList [/ 4; 3 / 4])] [IInt 1] =
    [("n"%string, PArr n); ("p"%string, PList [/ 4; 3 / 4])] /\ nd_shape n = [] /\ nd_entry n [] = 1.
Proof. eexists. split; [reflexivity|]. now split. Qed.

Print Assumptions C105_lists_kept.
