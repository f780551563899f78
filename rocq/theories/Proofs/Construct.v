(** The NormalInverseGamma constructor; shapes that are never combined. *)

From Coq Require Import ZArith Reals Lra Lia String.
From Verif Require Import Model.Num Model.Py Model.Dists Model.ScipyDist Model.Models Model.Table Model.NdArray Model.PyNum.
From Verif Require Import Spec.Defined Spec.Shapes.
From Coq Require Import List.
Import ListNotations.
Open Scope R_scope.

Lemma nig_exactly_one {V M A} (mu : V) (alpha beta : A) (delta_inverse : option M) (nu : option A) :
  ((exists d, new_NormalInverseGamma mu alpha beta delta_inverse nu = Ok d) <->
   ((delta_inverse <> None /\ nu = None) \/ (delta_inverse = None /\ nu <> None))) /\
  (forall d, new_NormalInverseGamma mu alpha beta delta_inverse nu = Ok d ->
   NormalInverseGamma_mu d = mu /\ NormalInverseGamma_alpha d = alpha /\ NormalInverseGamma_beta d = beta /\
   NormalInverseGamma_delta_inverse d = delta_inverse /\ NormalInverseGamma_nu d = nu) /\
  (forall e, new_NormalInverseGamma mu alpha beta delta_inverse nu = Raise e -> exists msg, e = ValueError msg).
Proof.
  destruct delta_inverse as [m|], nu as [v|]; simpl; (split; [split; [intros [d H]; try discriminate H|]|split; intros ? H]).
  all: try discriminate H; try (injection H as <-; simpl; auto; eauto; fail).
  all: try (intros [[H1 H2]|[H1 H2]]; congruence).
  - left. split; congruence.
  - intros _. eauto.
  - right. split; congruence.
  - intros _. eauto.
Qed.

Lemma nig_from_ig {V M : Type} (mu : V) (ig : InverseGamma R) (delta_inverse : option M) (nu : option R) :
  ((exists d, NormalInverseGamma_from_inverse_gamma mu ig delta_inverse nu = Ok d) <->
   ((delta_inverse <> None /\ nu = None) \/ (delta_inverse = None /\ nu <> None))) /\
  forall d, NormalInverseGamma_from_inverse_gamma mu ig delta_inverse nu = Ok d ->
   NormalInverseGamma_inverse_gamma d = ig /\ NormalInverseGamma_alpha d = InverseGamma_alpha ig /\
   NormalInverseGamma_beta d = InverseGamma_beta ig /\ NormalInverseGamma_mu d = mu /\
   NormalInverseGamma_delta_inverse d = delta_inverse /\ NormalInverseGamma_nu d = nu.
Proof.
  destruct ig as [a b]. unfold NormalInverseGamma_from_inverse_gamma. cbn [InverseGamma_alpha InverseGamma_beta].
  destruct (nig_exactly_one mu a b delta_inverse nu) as (H1 & H2 & _). split; [exact H1|]. intros d Hd.
  destruct (H2 d Hd) as (E1 & E2 & E3 & E4 & E5). unfold NormalInverseGamma_inverse_gamma. rewrite E2, E3. auto 6.
Qed.

Lemma nig_normal {A} {NA : Num A} {M} (x x2 n mu alpha beta : A) (delta_inverse : option M) (nu : option A)
    (d : NormalInverseGamma A M A) :
  new_NormalInverseGamma mu alpha beta delta_inverse nu = Ok d ->
  (delta_inverse <> None -> normal x x2 n (PNIG d) = Raise (ValueError "nu must be provided for the prior") /\
                            log_normal x x2 n (PNIG d) = Raise (ValueError "nu must be provided for the prior")) /\
  (delta_inverse = None -> exists mu' alpha' beta' nu' d',
     normal x x2 n (PNIG d) = Ok (PNIG d') /\ new_NormalInverseGamma mu' alpha' beta' (@None M) (Some nu') = Ok d').
Proof.
  intros H. destruct delta_inverse, nu; try discriminate H; injection H as <-; split; intros H; try congruence.
  - split; reflexivity.
  - simpl. do 5 eexists. split; reflexivity.
Qed.

Lemma nig_predictive {A} {NA : Num A} {M} (mu alpha beta : A) (delta_inverse : option M) (nu : option A)
    (d : NormalInverseGamma A M A) :
  new_NormalInverseGamma mu alpha beta delta_inverse nu = Ok d ->
  (delta_inverse <> None -> exists msg, normal_predictive (PNIG d) = Raise (TypeError msg)) /\
  (delta_inverse = None -> exists t, normal_predictive (PNIG d) = Ok t /\ StudentT_mu t = mu).
Proof.
  intros H. destruct delta_inverse, nu; try discriminate H; injection H as <-; split; intros H; try congruence.
  - eexists. reflexivity.
  - simpl. eexists. split; reflexivity.
Qed.

Lemma incompatible_accepted :
  exists (f : fn) (args : list (nd R)), length args = arity f /\ incompatible (map nd_shape args) /\
  exists out, run_nd (Ufuncs_R (fun _ _ => 0)) f args = Ok out /\ incompatible (map nd_shape out).
Proof.
  set (v k := mkNd [k] (fun _ : list nat => 1)).
  assert (I : forall l : list (list nat), In [2%nat] l -> In [3%nat] l -> incompatible l).
  { intros l H2 H3 [s Hs]. rewrite Forall_forall in Hs. apply Hs in H2. apply Hs in H3. unfold fits in *. simpl in *.
    inversion H2 as [|? ? ? d E]; subst. inversion H3 as [|? ? ? d' E']; subst.
    match goal with H : _ :: _ = _ :: _ |- _ => injection H as -> _ | _ => idtac end.
    repeat match goal with H : _ = rev s |- _ => rewrite <- H in * end. simpl in *. 
    match goal with H : ?a :: _ = ?b :: _ |- _ => injection H; intros; subst | _ => idtac end. destruct E, E'; congruence. }
  exists F_binomial_beta, [v 3%nat; scalar 1; v 2%nat; scalar 1]. split; [reflexivity|]. split.
  - apply I; simpl; auto.
  - eexists. split; [reflexivity|]. apply I; simpl; auto.
Qed.

(** C64: release tuples are compared component by component *)
Lemma betanbinom_dist_from (A : Type) (NA : Num A) (major minor micro : nat) (rest : list nat) (d : BetaNegativeBinomial A) :
  (exists f, BetaNegativeBinomial_dist (major :: minor :: micro :: rest) d = Ok f) <->
  (1 < major \/ (major = 1 /\ 12 <= minor))%nat.
Proof.
  unfold BetaNegativeBinomial_dist. cbn [tuple_lt].
  destruct (Nat.ltb_spec major 1), (Nat.eqb_spec major 1), (Nat.ltb_spec minor 12), (Nat.eqb_spec minor 12); cbn [orb andb];
    try (assert (E : (Nat.ltb micro 0 || Nat.eqb micro 0 && tuple_lt rest [])%bool = false) by (destruct micro, rest; reflexivity); rewrite E);
    (split; [intros [f H']; try discriminate H'; lia|intros H'; try lia; eexists; reflexivity]).
Qed.

Lemma betanbinom_dist_below (A : Type) (NA : Num A) (release : list nat) (d : BetaNegativeBinomial A) e :
  BetaNegativeBinomial_dist release d = Raise e -> exists msg, e = NotImplementedError msg.
Proof. unfold BetaNegativeBinomial_dist. destruct (tuple_lt _ _); intros H; inversion H; eauto. Qed.
