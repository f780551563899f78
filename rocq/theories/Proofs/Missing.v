From Coq Require Import ZArith Bool String Lia.
From Flocq Require Import Core BinarySingleNaN.
From Verif Require Import Model.Num Model.Py Model.Dists Model.Models Model.Table Model.Float64 Spec.Missing Proofs.Param.
From Coq Require Import List.
Import ListNotations.
Open Scope string_scope.
Open Scope list_scope.

(** ** Which arguments are read: booleans *)
Definition NumRead : Num bool := {|
  nadd := orb; nsub := orb; nmul := orb; ndiv := orb; nlit := fun _ => false; nhalf := false;
  nsq := fun x => x; nsqrt := fun x => x; nrsqrt := fun x => x; npow := orb |}.
Definition Ufuncs_read : Ufuncs bool := mkUfuncs (fun x => x) orb (fun x => x) (fun x => x) orb.

Definition mem (l : list string) (s : string) : bool := existsb (String.eqb s) l.
Lemma mem_In l s : mem l s = true <-> In s l.
Proof.
  unfold mem. rewrite existsb_exists. split.
  - intros (x & Hx & E). apply String.eqb_eq in E. now subst.
  - intros H. exists s. split; auto. apply String.eqb_refl.
Qed.

Definition eqb_bools (l l' : list bool) : bool := if list_eq_dec bool_dec l l' then true else false.
Definition flow_ok (w : flow) : bool :=
  forallb (fun s => match run (NA := NumRead) Ufuncs_read (f_fn w) (map (String.eqb s) (f_arguments w)) with
                    | Ok l => eqb_bools l (map (fun o => mem (snd o) s) (f_result w))
                    | Raise _ => false end) (f_arguments w).

Lemma flows_ok : forallb flow_ok flows = true.
Proof. vm_compute. reflexivity. Qed.

Fixpoint once (l : list string) : bool := match l with [] => true | a :: l => negb (mem l a) && once l end.
Lemma once_NoDup l : once l = true -> NoDup l.
Proof.
  induction l as [|a l IH]; simpl; intros H; constructor; apply andb_true_iff in H as [H1 H2]; auto.
  intros Hin. apply mem_In in Hin. now rewrite Hin in H1.
Qed.
Lemma names_once w : In w flows -> NoDup (f_arguments w).
Proof.
  intros Hw. apply once_NoDup. assert (F : forallb (fun w => once (f_arguments w)) flows = true) by (vm_compute; reflexivity).
  rewrite forallb_forall in F. now apply F.
Qed.

Lemma nth_error_map' {A B} (f : A -> B) l : forall i, nth_error (map f l) i = option_map f (nth_error l i).
Proof. induction l; intros [|i]; simpl; auto. Qed.

Lemma Forall2_nth {A B} (R : A -> B -> Prop) l l' : Forall2 R l l' ->
  forall i x, nth_error l i = Some x -> exists y, nth_error l' i = Some y /\ R x y.
Proof.
  induction 1; intros [|i] z E; simpl in *; try discriminate.
  - injection E as <-. eauto.
  - eauto.
Qed.

Lemma nth_Forall2 {A B} (R : A -> B -> Prop) : forall l l', List.length l = List.length l' ->
  (forall i x y, nth_error l i = Some x -> nth_error l' i = Some y -> R x y) -> Forall2 R l l'.
Proof.
  induction l as [|a l IH]; intros [|b l'] E H; try discriminate; constructor.
  - now apply (H 0%nat).
  - apply IH. now injection E. intros i x y. apply (H (S i)).
Qed.

Lemma nth_ext' {A} : forall l l' : list A, (forall i, nth_error l i = nth_error l' i) -> l = l'.
Proof.
  induction l as [|a l IH]; intros [|b l'] H; auto; try (specialize (H 0%nat); discriminate).
  f_equal. specialize (H 0%nat). now injection H. apply IH. intros i. apply (H (S i)).
Qed.

Section Propagation.
Context {A : Type} (NA : Num A) (U : Ufuncs A) (missing : A -> Prop).
Hypothesis Ab : absorbing NA U missing.

Definition carries (t : bool) (x : A) : Prop := t = true -> missing x.

Lemma carries_rel : NumRel NumRead NA Ufuncs_read U carries.
Proof.
  destruct Ab. unfold carries.
  constructor; simpl; intros;
    repeat match goal with H : (_ || _)%bool = true |- _ => apply orb_true_iff in H end;
    try discriminate; intuition auto.
Qed.

Lemma missing_carried w args i j name out from x :
  In w flows -> nth_error (f_arguments w) i = Some name -> nth_error (f_result w) j = Some (out, from) -> In name from ->
  List.length args = List.length (f_arguments w) ->
  nth_error args i = Some x -> missing x ->
  exists r y, run (NA := NA) U (f_fn w) args = Ok r /\ nth_error r j = Some y /\ missing y.
Proof.
  intros Hw Hi Hj Hin Hl Hx Mx. pose proof (names_once w Hw) as Hnd.
  pose proof flows_ok as F. rewrite forallb_forall in F. specialize (F _ Hw).
  unfold flow_ok in F.
  rewrite forallb_forall in F. specialize (F name (nth_error_In _ _ Hi)).
  assert (R : Forall2 carries (map (String.eqb name) (f_arguments w)) args).
  { apply nth_Forall2. now rewrite map_length.
    intros k t y Et Ey T. rewrite nth_error_map' in Et.
    destruct (nth_error (f_arguments w) k) as [s|] eqn:Es; [|discriminate].
    injection Et as Et. rewrite T in Et. apply String.eqb_eq in Et. subst s.
    assert (k = i).
    { apply (proj1 (NoDup_nth_error (f_arguments w)) Hnd). apply nth_error_Some. congruence. congruence. }
    subst k. rewrite Hx in Ey. injection Ey as <-. exact Mx. }
  pose proof (run_rel NumRead NA Ufuncs_read U carries carries_rel (f_fn w) _ _ R) as P.
  destruct (run (NA := NumRead) Ufuncs_read (f_fn w) (map (String.eqb name) (f_arguments w))) as [l|e]; [|discriminate].
  unfold eqb_bools in F. destruct (list_eq_dec bool_dec l (map (fun o => mem (snd o) name) (f_result w))) as [->|]; [|discriminate].
  destruct (run U (f_fn w) args) as [r|e]; simpl in P; [|contradiction].
  destruct (Forall2_nth _ _ _ P j (mem from name)) as (y & Ey & Hy).
  - rewrite nth_error_map', Hj. reflexivity.
  - exists r, y. split; auto. split; auto. apply Hy. now apply mem_In.
Qed.
End Propagation.

(** ** What is not read does not matter: pairs *)
Section Confined.
Context {A : Type} (NA : Num A) (U : Ufuncs A).
Definition both2 (f : A -> A -> A) (p q : A * A) : A * A := (f (fst p) (fst q), f (snd p) (snd q)).
Definition both1 (f : A -> A) (p : A * A) : A * A := (f (fst p), f (snd p)).
Definition NumPair : Num (A * A) := {|
  nadd := both2 nadd; nsub := both2 nsub; nmul := both2 nmul; ndiv := both2 ndiv;
  nlit := fun z => (nlit z, nlit z); nhalf := (nhalf, nhalf);
  nsq := both1 nsq; nsqrt := both1 nsqrt; nrsqrt := both1 nrsqrt; npow := both2 npow |}.
Definition Ufuncs_pair : Ufuncs (A * A) :=
  mkUfuncs (both1 (u_ln U)) (both2 (u_max U)) (both1 (u_sin U)) (both1 (u_cos U)) (both2 (u_arctan2 U)).

Lemma fst_rel : NumRel NumPair NA Ufuncs_pair U (fun p x => fst p = x).
Proof. constructor; simpl; intros; congruence. Qed.
Lemma snd_rel : NumRel NumPair NA Ufuncs_pair U (fun p x => snd p = x).
Proof. constructor; simpl; intros; congruence. Qed.

Definition same (t : bool) (p : A * A) : Prop := t = false -> fst p = snd p.
Lemma same_rel : NumRel NumRead NumPair Ufuncs_read Ufuncs_pair same.
Proof.
  unfold same. constructor; simpl; intros;
    repeat match goal with H : (_ || _)%bool = false |- _ => apply orb_false_iff in H as [? ?] end;
    repeat match goal with H : ?x = false -> _, H' : ?x = false |- _ => specialize (H H') end;
    congruence.
Qed.

Lemma combine_fst (l l' : list A) : List.length l = List.length l' -> Forall2 (fun p x => fst p = x) (combine l l') l.
Proof. revert l'. induction l; intros [|b l'] E; try discriminate; simpl; constructor; auto. Qed.
Lemma combine_snd (l l' : list A) : List.length l = List.length l' -> Forall2 (fun p x => snd p = x) (combine l l') l'.
Proof. revert l'. induction l; intros [|b l'] E; try discriminate; simpl; constructor; auto. Qed.
Lemma nth_combine (l : list A) : forall (l' : list A) i p, nth_error (combine l l') i = Some p ->
  nth_error l i = Some (fst p) /\ nth_error l' i = Some (snd p).
Proof.
  induction l as [|a l IH]; intros [|b l'] [|i] p E; simpl in *; try discriminate.
  - now injection E as <-.
  - now apply IH.
Qed.
End Confined.

(** the boolean run, output by output *)
Definition reads_ok (w : flow) : bool :=
  forallb (fun j => match nth_error (f_result w) j with
                    | Some o => match run (NA := NumRead) Ufuncs_read (f_fn w) (map (fun s => negb (mem (snd o) s)) (f_arguments w)) with
                                | Ok l => match nth_error l j with Some b => negb b | None => false end
                                | Raise _ => false end
                    | None => false end) (seq 0 (List.length (f_result w))).
Lemma reads_all : forallb reads_ok flows = true.
Proof. vm_compute. reflexivity. Qed.

Section Confined2.
Context {A : Type} (NA : Num A) (U : Ufuncs A).
Lemma confined w args args' j out from :
  In w flows -> nth_error (f_result w) j = Some (out, from) ->
  List.length args = List.length (f_arguments w) -> List.length args' = List.length (f_arguments w) ->
  (forall i name, nth_error (f_arguments w) i = Some name -> In name from -> nth_error args i = nth_error args' i) ->
  exists r r' y, run (NA := NA) U (f_fn w) args = Ok r /\ run (NA := NA) U (f_fn w) args' = Ok r' /\
    nth_error r j = Some y /\ nth_error r' j = Some y.
Proof.
  intros Hw Hj Hl Hl' Hsame.
  pose proof reads_all as F. rewrite forallb_forall in F. specialize (F _ Hw).
  unfold reads_ok in F. rewrite forallb_forall in F. specialize (F j). rewrite Hj in F.
  assert (Hlt : In j (seq 0 (List.length (f_result w)))).
  { apply in_seq. split; [lia|]. simpl. apply nth_error_Some. congruence. }
  specialize (F Hlt). cbn [snd] in F.
  assert (E : List.length args = List.length args') by congruence.
  assert (R : Forall2 same (map (fun s => negb (mem from s)) (f_arguments w)) (combine args args')).
  { apply nth_Forall2.
    - rewrite map_length, combine_length. lia.
    - intros k t p Et Ep T. rewrite nth_error_map' in Et.
      destruct (nth_error (f_arguments w) k) as [s|] eqn:Es; [|discriminate].
      injection Et as Et. subst t. apply negb_false_iff, mem_In in T.
      apply nth_combine in Ep as [E1 E2]. specialize (Hsame _ _ Es T). congruence. }
  pose proof (run_rel _ _ _ _ same (same_rel NA U) (f_fn w) _ _ R) as P.
  pose proof (run_rel _ _ _ _ _ (fst_rel NA U) (f_fn w) _ _ (combine_fst _ _ E)) as P1.
  pose proof (run_rel _ _ _ _ _ (snd_rel NA U) (f_fn w) _ _ (combine_snd _ _ E)) as P2.
  destruct (run (NA := NumRead) Ufuncs_read (f_fn w) (map (fun s => negb (mem from s)) (f_arguments w))) as [l|e]; [|discriminate].
  destruct (nth_error l j) as [b|] eqn:Eb; [|discriminate]. apply negb_true_iff in F. subst b.
  destruct (run (NA := NumPair NA) (Ufuncs_pair U) (f_fn w) (combine args args')) as [rp|e]; simpl in P; [|contradiction].
  destruct (run U (f_fn w) args) as [r|e]; simpl in P1; [|contradiction].
  destruct (run U (f_fn w) args') as [r'|e]; simpl in P2; [|contradiction].
  destruct (Forall2_nth _ _ _ P _ _ Eb) as (p & Ep & Sp).
  destruct (Forall2_nth _ _ _ P1 _ _ Ep) as (y & Ey & Hy).
  destruct (Forall2_nth _ _ _ P2 _ _ Ep) as (y' & Ey' & Hy').
  exists r, r', y. repeat split; auto. rewrite Ey'. specialize (Sp eq_refl). congruence.
Qed.
End Confined2.

(** ** The table is complete *)
Lemma flows_complete : forall f, exists w, In w flows /\ f_fn w = f.
Proof.
  intros f. assert (H : In f (map f_fn flows)).
  { unfold flows. cbn [map f_fn]. destruct f; try destruct one_start; repeat ((left; reflexivity) || right). }
  apply in_map_iff in H as (w & E & H). eauto.
Qed.

Lemma flow_result {A} (NA : Num A) (U : Ufuncs A) w args :
  In w flows -> List.length args = List.length (f_arguments w) ->
  exists r, run (NA := NA) U (f_fn w) args = Ok r /\ List.length r = List.length (f_result w).
Proof.
  intros Hw Hl.
  assert (R : Forall2 (fun (_ : bool) (_ : A) => True) (map (fun _ => false) (f_arguments w)) args).
  { apply nth_Forall2; auto. now rewrite map_length. }
  assert (NR : NumRel NumRead NA Ufuncs_read U (fun _ _ => True)) by (constructor; auto).
  pose proof (run_rel _ _ _ _ _ NR (f_fn w) _ _ R) as P.
  assert (F : forallb (fun w => match run (NA := NumRead) Ufuncs_read (f_fn w) (map (fun _ => false) (f_arguments w)) with
                                | Ok l => Nat.eqb (List.length l) (List.length (f_result w)) | Raise _ => false end) flows = true)
    by (vm_compute; reflexivity).
  rewrite forallb_forall in F. specialize (F _ Hw).
  destruct (run (NA := NumRead) Ufuncs_read (f_fn w) (map (fun _ => false) (f_arguments w))) as [l|e]; [|discriminate].
  apply Nat.eqb_eq in F. destruct (run U (f_fn w) args) as [r|e]; simpl in P; [|contradiction].
  exists r. split; auto. rewrite <- F. clear - P. induction P; simpl; auto.
Qed.

(** ** Unused arguments *)
Lemma unused_spec w name : In w flows -> In name (f_arguments w) ->
  (In (f_fn w, name) unused <-> forall out from, In (out, from) (f_result w) -> ~ In name from).
Proof.
  intros Hw Hn.
  assert (F : Forall (fun w => Forall (fun name =>
     In (f_fn w, name) unused <-> existsb (fun o => mem (snd o) name) (f_result w) = false) (f_arguments w)) flows).
  { unfold flows. repeat apply Forall_cons; try apply Forall_nil; cbn [f_arguments f_fn f_result];
    repeat apply Forall_cons; try apply Forall_nil; unfold unused;
    (split; [intros H; simpl in H;
       repeat match type of H with _ \/ _ => destruct H as [H|H] end; try contradiction; try discriminate H; try (injection H; intros; discriminate); vm_compute; reflexivity
     | intros H; vm_compute in H; try discriminate H; simpl; auto]). }
  rewrite Forall_forall in F. specialize (F _ Hw). cbv beta in F. rewrite Forall_forall in F. rewrite (F _ Hn).
  clear F. split.
  - intros E out from Hin Hname. assert (existsb (fun o => mem (snd o) name) (f_result w) = true).
    { apply existsb_exists. exists (out, from). split; auto. now apply mem_In. } congruence.
  - intros H. destruct (existsb _ _) eqn:E; auto. apply existsb_exists in E as ((out & from) & H1 & H2).
    apply mem_In in H2. destruct (H _ _ H1 H2).
Qed.

Lemma unused_ignored {A} (NA : Num A) (U : Ufuncs A) w name args args' :
  In w flows -> In (f_fn w, name) unused -> In name (f_arguments w) ->
  List.length args = List.length (f_arguments w) -> List.length args' = List.length (f_arguments w) ->
  (forall i s, nth_error (f_arguments w) i = Some s -> s <> name -> nth_error args i = nth_error args' i) ->
  run (NA := NA) U (f_fn w) args = run (NA := NA) U (f_fn w) args'.
Proof.
  intros Hw Hu Hn Hl Hl' Hs. pose proof (proj1 (unused_spec w name Hw Hn) Hu) as N.
  destruct (flow_result NA U w args Hw Hl) as (r & Er & Lr).
  destruct (flow_result NA U w args' Hw Hl') as (r' & Er' & Lr').
  rewrite Er, Er'. f_equal. apply nth_ext'. intros j.
  destruct (nth_error (f_result w) j) as [[out from]|] eqn:Ej.
  - destruct (confined NA U w args args' j out from Hw Ej Hl Hl') as (s & s' & y & E1 & E2 & E3 & E4).
    + intros i nm Hi Hin. apply (Hs i nm Hi). intros ->. exact (N _ _ (nth_error_In _ _ Ej) Hin).
    + congruence.
  - apply nth_error_None in Ej.
    rewrite (proj2 (nth_error_None r j)), (proj2 (nth_error_None r' j)); auto; lia.
Qed.

(** ** NaN *)
Lemma nan_eq x : nan x -> x = B754_nan.
Proof. destruct x; try discriminate; auto. Qed.

Lemma nan_absorbing L : propagates_nan L -> absorbing (NumF64 L) (Ufuncs_f64 L) nan.
Proof.
  intros [P1 P2 P3 P4 P5 P6 P7 P8].
  constructor; cbn [nadd nsub nmul ndiv nsq nsqrt nrsqrt NumF64 u_ln u_max u_sin u_cos u_arctan2 Ufuncs_f64]; intros x;
    try (intros N; apply nan_eq in N; subst x; assumption);
    intros y [N|N]; apply nan_eq in N; try subst x; try subst y; try apply P5; try apply P8;
    try reflexivity; destruct x; reflexivity.
Qed.

Lemma libm_by_sqrt_propagates : propagates_nan libm_by_sqrt.
Proof.
  constructor; try (vm_compute; reflexivity); simpl; intros x; split; try reflexivity; destruct x; reflexivity.
Qed.

(** ** Missing values added to any number type *)
Lemma null_absorbing {A} (NA : Num A) (U : Ufuncs A) : absorbing (NumNullable NA) (Ufuncs_nullable U) (fun x => x = None).
Proof.
  constructor; simpl; intros; repeat match goal with H : _ \/ _ |- _ => destruct H as [H|H] end; subst; auto; now destruct x.
Qed.
Lemma nullable_rel {A} (NA : Num A) (U : Ufuncs A) : NumRel NA (NumNullable NA) U (Ufuncs_nullable U) (fun a x => x = Some a).
Proof. constructor; simpl; intros; subst; auto. Qed.
Lemma nullable_values {A} (NA : Num A) (U : Ufuncs A) f args :
  run (NA := NumNullable NA) (Ufuncs_nullable U) f (map Some args) = rmap (map Some) (run (NA := NA) U f args).
Proof.
  assert (R : Forall2 (fun (a : A) x => x = Some a) args (map Some args)) by (induction args; simpl; constructor; auto).
  pose proof (run_rel _ _ _ _ _ (nullable_rel NA U) f _ _ R) as P.
  destruct (run U f args) as [r|e], (run (Ufuncs_nullable U) f (map Some args)) as [r'|e']; simpl in *; try contradiction; try congruence.
  f_equal. induction P; simpl; congruence.
Qed.

Lemma unused_seen w name : In w flows -> In name (f_arguments w) ->
  (In (f_fn w, name) unused ->
   forall (A : Type) (NA : Num A) (U : Ufuncs A) args args',
   List.length args = List.length (f_arguments w) -> List.length args' = List.length (f_arguments w) ->
   (forall i s, nth_error (f_arguments w) i = Some s -> s <> name -> nth_error args i = nth_error args' i) ->
   run (NA := NA) U (f_fn w) args = run (NA := NA) U (f_fn w) args') /\
  (~ In (f_fn w, name) unused ->
   forall L args i, propagates_nan L -> List.length args = List.length (f_arguments w) ->
   nth_error (f_arguments w) i = Some name -> nth_error args i = Some B754_nan ->
   exists r, run_f64 L (f_fn w) args = Ok r /\ In B754_nan r).
Proof.
  intros Hw Hn. split.
  - intros Hu A NA U args args' Hl Hl' Hs. now apply (unused_ignored NA U w name).
  - intros Hu L args i HL Hl Hi Hx.
    assert (E : exists j out from, nth_error (f_result w) j = Some (out, from) /\ In name from).
    { destruct (existsb (fun o => mem (snd o) name) (f_result w)) eqn:E.
      - apply existsb_exists in E as ((out & from) & H1 & H2). apply mem_In in H2. apply In_nth_error in H1 as [j Hj]. eauto.
      - destruct Hu. apply (unused_spec w name Hw Hn). intros out from H1 H2.
        assert (existsb (fun o => mem (snd o) name) (f_result w) = true); [|congruence].
        apply existsb_exists. exists (out, from). split; auto. now apply mem_In. }
    destruct E as (j & out & from & Hj & Hin).
    destruct (missing_carried (NumF64 L) (Ufuncs_f64 L) nan (nan_absorbing L HL) w args i j name out from B754_nan Hw Hi Hj Hin Hl Hx eq_refl)
      as (r & y & Er & Ey & Ny).
    exists r. split; auto. apply nan_eq in Ny. subst y. now apply nth_error_In in Ey.
Qed.

Lemma builtin_max_drops L n x_m alpha : lm_max L = builtin_max -> is_nan x_m = false ->
  exists alpha', run_f64 L F_uniform_pareto [B754_nan; n; x_m; alpha] = Ok [x_m; alpha'].
Proof.
  intros HL Nx. eexists. unfold run_f64. simpl. unfold uniform_pareto, Pareto_fields. simpl. rewrite HL. reflexivity.
Qed.
