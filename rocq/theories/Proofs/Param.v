(** Every function of the table is parametric in its number type. *)

From Coq Require Import ZArith Bool List String Lia.
From Verif Require Import Model.Num Model.Py Model.Dists Model.Models Model.Table Model.NdArray Model.Symbolic.
Import ListNotations.

(** A relation between two number types that all operators (except the general power, which
    no function of the table uses) preserve. *)
Record NumRel {A B} (NA : Num A) (NB : Num B) (UA : Ufuncs A) (UB : Ufuncs B) (R : A -> B -> Prop) : Prop := {
  r_add : forall a a' b b', R a b -> R a' b' -> R (nadd a a') (nadd b b');
  r_sub : forall a a' b b', R a b -> R a' b' -> R (nsub a a') (nsub b b');
  r_mul : forall a a' b b', R a b -> R a' b' -> R (nmul a a') (nmul b b');
  r_div : forall a a' b b', R a b -> R a' b' -> R (ndiv a a') (ndiv b b');
  r_lit : forall z, R (nlit z) (nlit z);
  r_half : R nhalf nhalf;
  r_sq : forall a b, R a b -> R (nsq a) (nsq b);
  r_sqrt : forall a b, R a b -> R (nsqrt a) (nsqrt b);
  r_rsqrt : forall a b, R a b -> R (nrsqrt a) (nrsqrt b);
  r_ln : forall a b, R a b -> R (u_ln UA a) (u_ln UB b);
  r_max : forall a a' b b', R a b -> R a' b' -> R (u_max UA a a') (u_max UB b b');
  r_sin : forall a b, R a b -> R (u_sin UA a) (u_sin UB b);
  r_cos : forall a b, R a b -> R (u_cos UA a) (u_cos UB b);
  r_arctan2 : forall a a' b b', R a b -> R a' b' -> R (u_arctan2 UA a a') (u_arctan2 UB b b')
}.

(** Both calls raise the same exception, or both return related parameters. *)
Definition res_rel {A B} (R : A -> B -> Prop) (x : res (list A)) (y : res (list B)) : Prop :=
  match x, y with
  | Ok l, Ok l' => Forall2 R l l'
  | Raise e, Raise e' => e = e'
  | _, _ => False
  end.

Lemma run_rel {A B} (NA : Num A) (NB : Num B) UA UB (R : A -> B -> Prop) :
  NumRel NA NB UA UB R -> forall f args args', Forall2 R args args' ->
  res_rel R (run UA f args) (run UB f args').
Proof.
  intros [] f args args' H.
  destruct f; simpl;
  repeat (match goal with H : Forall2 _ _ _ |- _ => inversion H; clear H; subst end; try reflexivity);
  try destruct one_start;
  cbv -[nadd nsub nmul ndiv nlit nhalf nsq nsqrt nrsqrt u_ln u_max u_sin u_cos u_arctan2];
  repeat (apply Forall2_cons || apply Forall2_nil); eauto 20.
Qed.

(** ** Broadcasting *)

(** [le s t]: a reversed shape [s] broadcasts to [t]. *)
Inductive le : list nat -> list nat -> Prop :=
| le_nil t : le [] t
| le_one s t d : le s t -> le (1%nat :: s) (d :: t)
| le_eq s t d : le s t -> le (d :: s) (d :: t).

Lemma bc_le s : forall t, bc s t = Some t <-> le s t.
Proof.
  induction s as [|a s IH]; intros t; simpl.
  - split; auto. constructor.
  - destruct t as [|b t].
    + split; intros H; [discriminate|inversion H].
    + destruct (bc s t) as [u|] eqn:E.
      * destruct (Nat.eqb_spec a b) as [->|N].
        { split; intros H. injection H as ->. apply le_eq. now apply IH.
          assert (L : le s t) by (inversion H; auto). apply IH in L. congruence. }
        destruct (Nat.eqb_spec a 1) as [->|N1].
        { split; intros H. injection H as ->. apply le_one. now apply IH.
          assert (L : le s t) by (inversion H; auto). apply IH in L. congruence. }
        destruct (Nat.eqb_spec b 1) as [->|N2].
        { split; intros H. injection H as Ha _. congruence. inversion H; subst; congruence. }
        split; intros H. discriminate. inversion H; subst; congruence.
      * split; intros H. discriminate.
        assert (L : le s t) by (inversion H; auto). apply IH in L. congruence.
Qed.

Lemma le_bc a b s : le a s -> le b s ->
  exists u, bc a b = Some u /\ le u s /\ (forall i, proj a (proj u i) = proj a i) /\ (forall i, proj b (proj u i) = proj b i).
Proof.
  intros Ha. revert b. induction Ha as [t|a t d Ha IH|a t d Ha IH]; intros b Hb.
  - exists b. split; [reflexivity|]. split; [exact Hb|]. split.
    + intros i. reflexivity.
    + clear. induction b as [|d b IH]; intros i; simpl; auto. destruct i; simpl; rewrite IH; destruct (Nat.eqb d 1); auto.
  - inversion Hb; subst.
    + exists (1 :: a)%nat. split; [reflexivity|]. split; [now apply le_one|]. split; [|reflexivity].
      assert (G : forall s i, proj s (proj s i) = proj s i).
      { clear. induction s as [|d s IHs]; intros i; simpl; auto. destruct i; simpl; rewrite IHs; destruct (Nat.eqb d 1); auto. }
      intros i. apply G.
    + destruct (IH _ H1) as (u & E & Hu & P1 & P2). simpl. rewrite E. exists (1 :: u)%nat.
      split; auto. split. now apply le_one. split; intros [|k i]; simpl; rewrite ?P1, ?P2; auto.
    + destruct (IH _ H1) as (u & E & Hu & P1 & P2). simpl. rewrite E. destruct d as [|[|d]]; simpl.
      * exists (0 :: u)%nat. split; auto. split. now apply le_eq. split; intros [|k i]; simpl; rewrite ?P1, ?P2; auto.
      * exists (1 :: u)%nat. split; auto. split. now apply le_eq. split; intros [|k i]; simpl; rewrite ?P1, ?P2; auto.
      * exists (S (S d) :: u)%nat. split; auto. split. now apply le_eq. split; intros [|k i]; simpl; rewrite ?P1, ?P2; auto.
  - inversion Hb; subst.
    + exists (d :: a)%nat. split; [reflexivity|]. split; [now apply le_eq|]. split; [|reflexivity].
      assert (G : forall s i, proj s (proj s i) = proj s i).
      { clear. induction s as [|d s IHs]; intros i; simpl; auto. destruct i; simpl; rewrite IHs; destruct (Nat.eqb d 1); auto. }
      intros i. apply G.
    + destruct (IH _ H1) as (u & E & Hu & P1 & P2). simpl. rewrite E. destruct d as [|[|d]]; simpl.
      * exists (0 :: u)%nat. split; auto. split. now apply le_eq. split; intros [|k i]; simpl; rewrite ?P1, ?P2; auto.
      * exists (1 :: u)%nat. split; auto. split. now apply le_eq. split; intros [|k i]; simpl; rewrite ?P1, ?P2; auto.
      * exists (S (S d) :: u)%nat. split; auto. split. now apply le_eq. split; intros [|k i]; simpl; rewrite ?P1, ?P2; auto.
    + destruct (IH _ H1) as (u & E & Hu & P1 & P2). simpl. rewrite E, Nat.eqb_refl. exists (d :: u)%nat.
      split; auto. split. now apply le_eq. split; intros [|k i]; simpl; destruct (Nat.eqb d 1); rewrite ?P1, ?P2; auto.
Qed.

(** The array [a] broadcasts to shape [s]. *)
Definition broadcasts_to {A} (s : list nat) (a : nd A) : Prop := broadcast_shapes (nd_shape a) s = Some s.

Lemma broadcasts_le {A} s (a : nd A) : broadcasts_to s a <-> le (rev (nd_shape a)) (rev s).
Proof.
  unfold broadcasts_to, broadcast_shapes. rewrite <- bc_le.
  destruct (bc (rev (nd_shape a)) (rev s)) as [u|]; simpl; split; intros H; try discriminate.
  - injection H as H. now rewrite <- H, rev_involutive.
  - injection H as ->. now rewrite rev_involutive.
Qed.

Definition entry_rel {A} (s i : list nat) (a : res (nd A)) (x : A) : Prop :=
  exists arr, a = Ok arr /\ broadcasts_to s arr /\ at_index i arr = x.

Lemma map2_rel {A} (f : A -> A -> A) s i a b x y :
  entry_rel s i a x -> entry_rel s i b y -> entry_rel s i (lift2 f a b) (f x y).
Proof.
  intros (a' & -> & Ha & <-) (b' & -> & Hb & <-). apply broadcasts_le in Ha. apply broadcasts_le in Hb.
  destruct (le_bc _ _ _ Ha Hb) as (u & E & Hu & P1 & P2).
  unfold lift2, map2, broadcast_shapes. simpl. rewrite E. simpl. eexists. split; [reflexivity|]. split.
  - apply broadcasts_le. simpl. now rewrite rev_involutive.
  - unfold at_index. simpl. rewrite !rev_involutive, P1, P2. reflexivity.
Qed.

Lemma map1_rel {A} (f : A -> A) s i a x : entry_rel s i a x -> entry_rel s i (lift1 f a) (f x).
Proof. intros (a' & -> & Ha & <-). exists (map1 f a'). repeat split; auto. Qed.

Lemma lit_rel {A} s i (x : A) : entry_rel s i (Ok (scalar x)) x.
Proof.
  exists (scalar x). repeat split. unfold broadcasts_to, broadcast_shapes. simpl. now rewrite rev_involutive.
Qed.

Lemma nd_rel {A} (NA : Num A) (U : Ufuncs A) s i : NumRel (NumNd NA) NA (Ufuncs_nd U) U (entry_rel s i).
Proof.
  constructor; intros; simpl; auto using map2_rel, map1_rel, lit_rel.
Qed.

Lemma Forall2_sequence {A} s i (l : list (res (nd A))) (l' : list A) : Forall2 (entry_rel s i) l l' ->
  exists arrs, sequence l = Ok arrs /\ Forall (broadcasts_to s) arrs /\ map (at_index i) arrs = l'.
Proof.
  induction 1 as [|a x l l' (arr & -> & H1 & H2) _ (arrs & E & F & G)].
  - exists []. auto.
  - exists (arr :: arrs). simpl. rewrite E. simpl. repeat split; auto. now rewrite H2, G.
Qed.

Lemma run_nd_entries {A} {NA : Num A} (U : Ufuncs A) (f : fn) (args : list (nd A)) (s i : list nat) :
  Forall (broadcasts_to s) args ->
  match run_nd U f args with
  | Ok out => Forall (broadcasts_to s) out /\ run U f (map (at_index i) args) = Ok (map (at_index i) out)
  | Raise e => run U f (map (at_index i) args) = Raise e
  end.
Proof.
  intros H. assert (F : Forall2 (entry_rel s i) (map Ok args) (map (at_index i) args)).
  { induction H; simpl; constructor; auto. exists x. auto. }
  pose proof (run_rel _ _ _ _ _ (nd_rel NA U s i) f _ _ F) as G. unfold run_nd.
  destruct (run (Ufuncs_nd U) f (map Ok args)) as [l|e]; destruct (run U f (map (at_index i) args)) as [l'|e']; simpl in *; try contradiction.
  - destruct (Forall2_sequence _ _ _ _ G) as (arrs & E & F1 & F2). rewrite E. split; auto. now rewrite F2.
  - now rewrite G.
Qed.

(** ** Shapes of the result *)

Definition shape_rel {A} (a : res (nd A)) (s : res (list nat)) : Prop := rmap nd_shape a = s.

Lemma shape_num_rel {A} (NA : Num A) (U : Ufuncs A) : NumRel (NumNd NA) NumShape (Ufuncs_nd U) Ufuncs_shape shape_rel.
Proof.
  assert (H2 : forall (f : A -> A -> A) a a' b b', shape_rel a b -> shape_rel a' b' -> shape_rel (lift2 f a a') (shape2 b b')).
  { intros f a a' b b' <- <-. unfold shape_rel, lift2, shape2, map2. destruct a as [a|e], a' as [a'|e']; simpl; auto.
    now destruct (broadcast_shapes (nd_shape a) (nd_shape a')). }
  assert (H1 : forall (f : A -> A) a b, shape_rel a b -> shape_rel (lift1 f a) b).
  { intros f a b <-. unfold shape_rel, lift1. destruct a; reflexivity. }
  constructor; intros; simpl; auto; reflexivity.
Qed.

Lemma run_nd_shapes {A} {NA : Num A} (U : Ufuncs A) (f : fn) (args : list (nd A)) :
  rmap (map nd_shape) (run_nd U f args) =
  bind (run (NA := NumShape) Ufuncs_shape f (map (fun a => Ok (nd_shape a)) args)) (fun l => sequence l).
Proof.
  assert (F : Forall2 shape_rel (map Ok args) (map (fun a => Ok (nd_shape a)) args)).
  { induction args; simpl; constructor; auto. reflexivity. }
  pose proof (run_rel _ _ _ _ _ (shape_num_rel NA U) f _ _ F) as G. unfold run_nd.
  destruct (run (Ufuncs_nd U) f (map Ok args)) as [l|e]; destruct (run _ f (map _ args)) as [l'|e']; simpl in *; try contradiction.
  - induction G as [|a x l l' Hx _ IH]; simpl; auto. unfold shape_rel in Hx. rewrite <- Hx.
    destruct a; simpl; auto. rewrite <- IH. destruct (sequence l); reflexivity.
  - now rewrite G.
Qed.

(** ** Symbolic inputs *)

Lemma expr_rel {A} {NA : Num A} (U : Ufuncs A) (row : nat -> A) :
  NumRel NumExpr NA Ufuncs_expr U (fun e x => eval U row e = x).
Proof. constructor; intros; simpl; subst; reflexivity. Qed.

Lemma run_symbolic {A} {NA : Num A} (U : Ufuncs A) (row : nat -> A) (f : fn) (args : list expr) :
  run U f (map (eval U row) args) = rmap (map (eval U row)) (run Ufuncs_expr f args).
Proof.
  assert (F : Forall2 (fun e x => eval U row e = x) args (map (eval U row) args)) by (induction args; simpl; constructor; auto).
  pose proof (run_rel _ _ _ _ _ (expr_rel U row) f _ _ F) as G.
  destruct (run Ufuncs_expr f args) as [l|e]; destruct (run U f _) as [l'|e']; simpl in *; try contradiction.
  - f_equal. induction G; simpl; auto. now rewrite H, IHG.
  - now rewrite G.
Qed.
