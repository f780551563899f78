(** Shapes of the results of vectorised calls. *)

From Coq Require Import ZArith Bool String List Lia.
From Verif Require Import Model.Num Model.Py Model.Dists Model.Models Model.Table Model.NdArray.
From Verif Require Import Spec.Defined Spec.Shapes Proofs.Param.
Import ListNotations.

Lemma fits_rev_le s t : fits_rev s t <-> le s t.
Proof.
  split; induction 1; try constructor; auto.
  destruct H as [-> | ->]. now apply le_one. now apply le_eq.
Qed.

Lemma fits_rev_trans s t u : fits_rev s t -> fits_rev t u -> fits_rev s u.
Proof.
  intros H. revert u. induction H as [t|s t c d Hc H IH]; intros u Hu. constructor.
  inversion Hu; subst. constructor; auto. lia.
Qed.

Lemma bc_upper s : forall t u, bc s t = Some u -> fits_rev s u /\ fits_rev t u.
Proof.
  induction s as [|a s IH]; intros t u H; simpl in H.
  - injection H as ->. split. constructor. clear. induction u; constructor; auto.
  - assert (R : forall l, fits_rev l l) by (induction l; constructor; auto).
    destruct t as [|b t]. { injection H as <-. split. apply R. constructor. }
    destruct (bc s t) as [w|] eqn:E; [|discriminate]. destruct (IH _ _ E) as [H1 H2].
    destruct (Nat.eqb_spec a b) as [->|N]. { injection H as <-. split; constructor; auto. }
    destruct (Nat.eqb_spec a 1) as [->|N1]. { injection H as <-. split; constructor; auto. }
    destruct (Nat.eqb_spec b 1) as [->|N2]; [|discriminate]. injection H as <-. split; constructor; auto.
Qed.

Lemma bcast_joint s t : match broadcast_shapes s t with
  | Some u => fits s u /\ fits t u /\ (forall v, fits s v -> fits t v -> fits u v)
  | None => forall v, fits s v -> fits t v -> False end.
Proof.
  unfold broadcast_shapes, fits. destruct (bc (rev s) (rev t)) as [u|] eqn:E; simpl.
  - rewrite rev_involutive. destruct (bc_upper _ _ _ E). split; auto. split; auto.
    intros v Hs Ht. apply fits_rev_le in Hs. apply fits_rev_le in Ht. apply fits_rev_le.
    destruct (le_bc _ _ _ Hs Ht) as (u' & E' & L & _). congruence.
  - intros v Hs Ht. apply fits_rev_le in Hs. apply fits_rev_le in Ht.
    destruct (le_bc _ _ _ Hs Ht) as (u' & E' & _). congruence.
Qed.

(** Dependencies as numbers. *)
Definition NumDeps : Num (list nat) := {|
  nadd := @app nat; nsub := @app nat; nmul := @app nat; ndiv := @app nat; nlit := fun _ => []; nhalf := [];
  nsq := fun a => a; nsqrt := fun a => a; nrsqrt := fun a => a; npow := @app nat |}.
Definition Ufuncs_deps : Ufuncs (list nat) := mkUfuncs (fun a => a) (@app nat) (fun a => a) (fun a => a) (@app nat).

Section Rel.
Variable shapes : list (list nat).
Let msg := ValueError "operands could not be broadcast together"%string.

Definition dep_rel (r : res (list nat)) (p : list nat) : Prop :=
  match r with
  | Ok s => joint (pick [] shapes p) s
  | Raise e => e = msg /\ incompatible (pick [] shapes p)
  end.

Lemma pick_app p q : pick [] shapes (p ++ q) = pick [] shapes p ++ pick [] shapes q.
Proof. unfold pick. apply map_app. Qed.

Lemma dep_rel2 a b p q : dep_rel a p -> dep_rel b q -> dep_rel (shape2 a b) (p ++ q).
Proof.
  unfold dep_rel, shape2. destruct a as [s|e]; simpl.
  2:{ intros [-> H] _. split; auto. intros [u Hu]. apply H. exists u. rewrite pick_app, Forall_app in Hu. tauto. }
  destruct b as [t|e]; simpl.
  2:{ intros _ [-> H]. split; auto. intros [u Hu]. apply H. exists u. rewrite pick_app, Forall_app in Hu. tauto. }
  intros [H1 H2] [H3 H4]. pose proof (bcast_joint s t) as J. destruct (broadcast_shapes s t) as [u|].
  - destruct J as (J1 & J2 & J3). rewrite pick_app. split.
    + rewrite Forall_app. split; eapply Forall_impl; try eassumption; simpl; intros; eapply fits_rev_trans; eauto.
    + intros v Hv. rewrite Forall_app in Hv. destruct Hv. auto.
  - split; auto. intros [v Hv]. rewrite pick_app, Forall_app in Hv. destruct Hv. eauto.
Qed.

Lemma dep_rel0 : dep_rel (Ok []) [].
Proof. split. constructor. intros. constructor. Qed.

Lemma deps_rel : NumRel NumShape NumDeps Ufuncs_shape Ufuncs_deps dep_rel.
Proof. constructor; intros; try (apply dep_rel2; assumption); try apply dep_rel0; assumption. Qed.
End Rel.

Lemma pick_equiv (shapes : list (list nat)) p q : (forall k, In k p <-> In k q) ->
  forall P : list nat -> Prop, Forall P (pick [] shapes p) <-> Forall P (pick [] shapes q).
Proof.
  intros H P. unfold pick. rewrite !Forall_map, !Forall_forall.
  split; intros G x Hx; apply G; now apply H.
Qed.

Definition same_set (p q : list nat) : Prop := forall k, In k p <-> In k q.

(** The table of [Spec/Shapes.v] is the one of the code. *)
Lemma run_deps f : exists ds, run (NA := NumDeps) Ufuncs_deps f (map (fun k => [k]) (seq 0 (arity f))) = Ok ds /\
  Forall2 same_set ds (deps f).
Proof.
  destruct f; try destruct one_start; (eexists; split; [reflexivity|]);
  cbv [deps]; repeat (apply Forall2_cons; [intros k; simpl; tauto|]); apply Forall2_nil.
Qed.

Lemma seq_rel (shapes : list (list nat)) : Forall2 (dep_rel shapes) (map Ok shapes) (map (fun k => [k]) (seq 0 (length shapes))).
Proof.
  enough (G : forall l k, (forall i, nth i l [] = nth (k + i) shapes []) ->
    Forall2 (dep_rel shapes) (map Ok l) (map (fun k => [k]) (seq k (length l)))) by (apply G; auto).
  induction l as [|s l IH]; intros k H; simpl. constructor.
  constructor.
  - specialize (H 0%nat). simpl in H. rewrite Nat.add_0_r in H. simpl. unfold pick. simpl. rewrite <- H. split.
    + constructor; auto. unfold fits. generalize (rev s). induction l0; constructor; auto.
    + intros u Hu. now inversion Hu.
  - apply IH. intros i. specialize (H (S i)). simpl in H. rewrite H. f_equal. lia.
Qed.

(** C32: shapes of the results, or the exception *)
Lemma run_nd_joint {A} {NA : Num A} (U : Ufuncs A) (f : fn) (args : list (nd A)) :
  length args = arity f ->
  let needed := map (pick [] (map nd_shape args)) (deps f) in
  match run_nd U f args with
  | Ok out => Forall2 (fun a l => joint l (nd_shape a)) out needed
  | Raise e => e = ValueError "operands could not be broadcast together" /\ Exists incompatible needed
  end.
Proof.
  intros Hl needed. set (shapes := map nd_shape args) in *.
  pose proof (seq_rel shapes) as S0. unfold shapes at 3 in S0. rewrite map_length, Hl in S0.
  pose proof (run_rel _ _ _ _ _ (deps_rel shapes) f _ _ S0) as G.
  destruct (run_deps f) as (ds & Ed & Hd). rewrite Ed in G.
  pose proof (run_nd_shapes U f args) as Sh.
  replace (map (fun a => Ok (nd_shape a)) args) with (map (@Ok (list nat)) shapes) in Sh by (unfold shapes; now rewrite map_map).
  destruct (run Ufuncs_shape f (map Ok shapes)) as [l|e]; [|contradiction]. simpl in Sh, G.
  assert (K : match sequence l with
    | Ok ss => Forall2 (fun s l => joint l s) ss needed
    | Raise e => e = ValueError "operands could not be broadcast together" /\ Exists incompatible needed end).
  { clear Sh Ed S0. unfold needed. revert l G. induction Hd as [|p q ds qs Hpq _ IH]; intros l G.
    { inversion G; subst; simpl. constructor. }
    inversion G as [|x ? l0 ? H1 H3]; subst; simpl.
    specialize (IH _ H3). unfold dep_rel in H1. destruct x as [s|e]; simpl.
    - assert (Q : joint (pick [] shapes q) s).
      { destruct H1 as [J1 J2]. split. now rewrite <- (pick_equiv shapes p q Hpq).
        intros u Hu. apply J2. now rewrite (pick_equiv shapes p q Hpq). }
      destruct (sequence l0); simpl. constructor; auto. destruct IH; split; auto.
    - destruct H1 as [-> H]. split; auto. left. intros [u Hu]. apply H. exists u. now rewrite (pick_equiv shapes p q Hpq). }
  destruct (run_nd U f args) as [out|e]; simpl in Sh; rewrite <- Sh in K; auto.
  clear - K. revert K. generalize needed. induction out as [|a out IH]; intros l' K; inversion K; subst; simpl.
  apply Forall2_nil. apply Forall2_cons; auto.
Qed.

Lemma Forall2_len {X Y} (R : X -> Y -> Prop) l l' : Forall2 R l l' -> length l = length l'.
Proof. induction 1; simpl; auto. Qed.

(** C32: compatible arguments are never rejected; every entry is the scalar call *)
Lemma fits_broadcasts {A} s (a : nd A) : fits (nd_shape a) s <-> broadcasts_to s a.
Proof. unfold fits. rewrite fits_rev_le. symmetry. apply broadcasts_le. Qed.

Lemma run_nd_entrywise {A} {NA : Num A} (U : Ufuncs A) (f : fn) (args : list (nd A)) (s : list nat) :
  length args = arity f -> Forall (fun a => fits (nd_shape a) s) args ->
  exists out, run_nd U f args = Ok out /\ length out = length (deps f) /\
    Forall (fun a => fits (nd_shape a) s) out /\
    forall i, run U f (map (at_index i) args) = Ok (map (at_index i) out).
Proof.
  intros Hl H. pose proof (run_nd_joint U f args Hl) as J.
  assert (H' : Forall (broadcasts_to s) args) by (eapply Forall_impl; [|exact H]; intros a; apply fits_broadcasts).
  assert (E := fun i => run_nd_entries U f args s i H').
  destruct (run_nd U f args) as [out|e].
  - exists out. split; auto. split. rewrite (Forall2_len _ _ _ J). apply map_length. split.
    + specialize (E []). destruct E as [E _]. eapply Forall_impl; [|exact E]. intros a; apply fits_broadcasts.
    + intros i. apply (E i).
  - destruct J as [_ J]. exfalso. rewrite Exists_exists in J. destruct J as (l & Hin & Hinc).
    apply in_map_iff in Hin. destruct Hin as (p & <- & _). apply Hinc. exists s. unfold pick. rewrite Forall_map.
    apply Forall_forall. intros k _. destruct (le_lt_dec (length (map nd_shape args)) k) as [L|L].
    + rewrite nth_overflow by auto. constructor.
    + rewrite Forall_forall in H. destruct (proj1 (in_map_iff nd_shape args _) (nth_In (map nd_shape args) [] L)) as (a & <- & Ha). now apply H.
Qed.
