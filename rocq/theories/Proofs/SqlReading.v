(** Reading the text of a term gives the term back, up to associativity. *)

From Coq Require Import ZArith Bool List String Reals Lra Lia.
From Verif Require Import Model.Num Model.Py Model.Dists Model.Models Model.Table Model.PyNum Model.Sql.
From Verif Require Import Spec.SqlReading Proofs.Param.
Import ListNotations.
Open Scope list_scope.

Section Reading.
Context {C : Type}.
Notation exp := (sqlexp (pynum C)).

Fixpoint tree (t : term C) : exp :=
  match t with
  | Col c => SCol c | Val p => SNum p
  | Arith o a b => SBin o (tree a) (tree b)
  | Call1 f a => SCall1 f (tree a) | Call2 f a b => SCall2 f (tree a) (tree b)
  end.

(** The regroupings the missing parentheses cause. *)
Inductive assoc : exp -> exp -> Prop :=
| as_refl e : assoc e e
| as_trans a b c : assoc a b -> assoc b c -> assoc a c
| as_bin o a a' b b' : assoc a a' -> assoc b b' -> assoc (SBin o a b) (SBin o a' b')
| as_call1 f a a' : assoc a a' -> assoc (SCall1 f a) (SCall1 f a')
| as_call2 f a a' b b' : assoc a a' -> assoc b b' -> assoc (SCall2 f a b) (SCall2 f a' b')
| as_sum o a b c : additive o = true -> assoc (SBin Add a (SBin o b c)) (SBin o (SBin Add a b) c)
| as_prod o a b c : additive o = false -> assoc (SBin Mul a (SBin o b c)) (SBin o (SBin Mul a b) c).
Hint Constructors assoc : core.

Definition plus_or_nothing (p : option (exp * binop)) : Prop := match p with None => True | Some (_, o) => o = Add end.
Definition times_or_nothing (p : option (exp * binop)) : Prop := match p with None => True | Some (_, o) => o = Mul end.
Definition is_sum (t : term C) : bool := match operator t with Some o => additive o | None => false end.

Definition as_summand (t : term C) : Prop := forall rest outer f,
  f_prod f = None -> plus_or_nothing (f_sum f) ->
  exists f' a, read_from (text t ++ rest) outer f None = read_from rest outer f' (Some a) /\
    f_open f' = f_open f /\ assoc (pending (f_sum f) (tree t)) (close_sum f' a).
Definition as_factor (t : term C) : Prop := forall rest outer f,
  times_or_nothing (f_prod f) ->
  exists f' a, read_from (text t ++ rest) outer f None = read_from rest outer f' (Some a) /\
    f_open f' = f_open f /\ f_sum f' = f_sum f /\ assoc (pending (f_prod f) (tree t)) (close_product f' a).
Definition as_operand (t : term C) (toks : list (token C)) : Prop := forall rest outer f,
  exists a, read_from (toks ++ rest) outer f None = read_from rest outer f (Some a) /\ assoc (tree t) a.

Lemma operand_factor t : as_operand t (text t) -> as_factor t.
Proof.
  intros H rest outer f Hp. destruct (H rest outer f) as (a & E & A).
  exists f, a. repeat split; auto. unfold close_product. destruct (f_prod f) as [[l o]|]; simpl; auto.
Qed.

Lemma factor_summand t : as_factor t -> as_summand t.
Proof.
  intros H rest outer f Hp Hs. destruct (H rest outer f) as (f' & a & E & O & S & A).
  { rewrite Hp. exact Logic.I. }
  exists f', a. repeat split; auto. unfold close_sum. rewrite S. rewrite Hp in A. simpl in A.
  destruct (f_sum f) as [[l o]|]; simpl; auto.
Qed.

Lemma summand_parens t : as_summand t -> as_operand t (parens true (text t)).
Proof.
  intros H rest outer f. simpl. rewrite <- app_assoc. simpl app.
  destruct (H (TClose :: rest) (f :: outer) (start Group)) as (f' & a & E & O & A); simpl; auto.
  rewrite E. simpl. rewrite O. simpl in *. eauto.
Qed.

Lemma rendered t :
  as_summand t /\ (is_sum t = false -> as_factor t) /\ (operator t = None -> as_operand t (text t)).
Proof.
  induction t as [c|p|o a [Sa [Fa Oa]] b [Sb [Fb Ob]]|g a [Sa _]|g a [Sa _] b [Sb _]].
  - assert (H : as_operand (Col c) (text (Col c))). { intros rest outer f. simpl. eauto. }
    repeat split; auto using operand_factor, factor_summand.
  - assert (H : as_operand (Val p) (text (Val p))). { intros rest outer f. simpl. eauto. }
    repeat split; auto using operand_factor, factor_summand.
  - (* the left operand of a product, the right operands *)
    assert (La : additive o = false ->
      forall rest outer f, times_or_nothing (f_prod f) ->
      exists f' x, read_from (parens (left_needs_parens o (operator a)) (text a) ++ rest) outer f None = read_from rest outer f' (Some x) /\
        f_open f' = f_open f /\ f_sum f' = f_sum f /\ assoc (pending (f_prod f) (tree a)) (close_product f' x)).
    { intros Ho. destruct (is_sum a) eqn:Ia.
      - assert (left_needs_parens o (operator a) = true) as ->.
        { unfold is_sum in Ia. unfold left_needs_parens. destruct (operator a); [|discriminate]. now rewrite Ho. }
        intros rest outer f Hf. destruct (summand_parens _ Sa rest outer f) as (x & E & A).
        exists f, x. repeat split; auto. unfold close_product. destruct (f_prod f) as [[l o']|]; simpl; auto.
      - assert (left_needs_parens o (operator a) = false) as ->.
        { unfold is_sum in Ia. unfold left_needs_parens. destruct (operator a); auto. now rewrite Ho. }
        exact (Fa eq_refl). }
    destruct (additive o) eqn:Ho.
    + (* a sum *)
      repeat split; try discriminate.
      2: { unfold is_sum. simpl. rewrite Ho. discriminate. }
      intros rest outer f Hp Hs. simpl text.
      assert (left_needs_parens o (operator a) = false) as ->.
      { unfold left_needs_parens. rewrite Ho. now destruct (operator a). }
      simpl parens at 1. rewrite <- app_assoc. simpl app.
      destruct (Sa (TOp o :: parens (right_needs_parens o (operator b)) (text b) ++ rest) outer f Hp Hs)
        as (f1 & x & E & O & A). rewrite E. simpl. rewrite Ho.
      set (f2 := mkFrame (f_open f1) (Some (close_sum f1 x, o)) None).
      assert (G : exists f' y, read_from (parens (right_needs_parens o (operator b)) (text b) ++ rest) outer f2 None
                   = read_from rest outer f' (Some y) /\ f_open f' = f_open f2 /\
                   assoc (SBin o (close_sum f1 x) (tree b)) (close_sum f' y)).
      { destruct o; try discriminate.
        - (* Add *)
          assert (right_needs_parens Add (operator b) = false) as -> by (now destruct (operator b)).
          destruct (Sb rest outer f2) as (f' & y & E' & O' & A'); simpl; auto. exists f', y. auto.
        - (* Sub *)
          destruct (is_sum b) eqn:Ib.
          + assert (right_needs_parens Sub (operator b) = true) as ->.
            { unfold is_sum in Ib. destruct (operator b); [exact Ib|discriminate]. }
            destruct (summand_parens _ Sb rest outer f2) as (y & E' & A').
            exists f2, y. repeat split; auto. simpl. unfold close_sum at 2. simpl. auto.
          + assert (right_needs_parens Sub (operator b) = false) as ->.
            { unfold is_sum in Ib. destruct (operator b); [exact Ib|reflexivity]. }
            destruct (Fb eq_refl rest outer f2) as (f' & y & E' & O' & S' & A'); simpl; auto.
            exists f', y. repeat split; auto. unfold close_sum at 2. rewrite S'. simpl. auto. }
      destruct G as (f' & y & E' & O' & A'). exists f', y. split; [exact E'|]. split; [simpl in O'; congruence|].
      apply as_trans with (2 := A').
      destruct (f_sum f) as [[l o']|]; simpl in *; auto. subst o'.
      apply as_trans with (1 := as_sum o l (tree a) (tree b) Ho). auto.
    + (* a product *)
      assert (H : as_factor (Arith o a b)).
      { intros rest outer f Hf. simpl text. rewrite <- app_assoc. simpl app.
        destruct (La eq_refl (TOp o :: parens (right_needs_parens o (operator b)) (text b) ++ rest) outer f Hf)
          as (f1 & x & E & O & S & A). rewrite E. simpl. rewrite Ho.
        set (f2 := mkFrame (f_open f1) (f_sum f1) (Some (close_product f1 x, o))).
        assert (G : exists f' y, read_from (parens (right_needs_parens o (operator b)) (text b) ++ rest) outer f2 None
                     = read_from rest outer f' (Some y) /\ f_open f' = f_open f2 /\ f_sum f' = f_sum f2 /\
                     assoc (SBin o (close_product f1 x) (tree b)) (close_product f' y)).
        { destruct (right_needs_parens o (operator b)) eqn:Rb.
          - destruct (summand_parens _ Sb rest outer f2) as (y & E' & A').
            exists f2, y. repeat split; auto. unfold close_product at 2. simpl. auto.
          - destruct o; try discriminate.
            + assert (Ib : is_sum b = false). { unfold is_sum. destruct (operator b); auto. }
              destruct (Fb Ib rest outer f2) as (f' & y & E' & O' & S' & A'); simpl; auto.
              exists f', y. repeat split; auto.
            + assert (Ib : operator b = None). { destruct (operator b); auto. discriminate. }
              destruct (Ob Ib rest outer f2) as (y & E' & A').
              exists f2, y. repeat split; auto. unfold close_product at 2. simpl. auto. }
        destruct G as (f' & y & E' & O' & S' & A'). exists f', y. split; [exact E'|].
        split; [simpl in O'; congruence|]. split; [simpl in S'; congruence|].
        apply as_trans with (2 := A').
        destruct (f_prod f) as [[l o']|]; simpl in *; auto. subst o'.
        apply as_trans with (1 := as_prod o l (tree a) (tree b) Ho). auto. }
      repeat split; auto using factor_summand. discriminate.
  - assert (H : as_operand (Call1 g a) (text (Call1 g a))).
    { intros rest outer f. simpl. rewrite <- app_assoc. simpl app.
      destruct (Sa (TClose :: rest) (f :: outer) (start (InCall g))) as (f' & x & E & O & A); simpl; auto.
      rewrite E. simpl. rewrite O. simpl in *. eauto. }
    repeat split; auto using operand_factor, factor_summand.
  - assert (H : as_operand (Call2 g a b) (text (Call2 g a b))).
    { intros rest outer f. simpl. rewrite <- app_assoc. simpl app. rewrite <- app_assoc. simpl app.
      destruct (Sa (TComma :: text b ++ TClose :: rest) (f :: outer) (start (InCall g))) as (f' & x & E & O & A); simpl; auto.
      rewrite E. simpl. rewrite O. simpl in *.
      destruct (Sb (TClose :: rest) (f :: outer) (start (InCall2 g (close_sum f' x)))) as (f'' & y & E' & O' & A'); simpl; auto.
      rewrite E'. simpl. rewrite O'. simpl in *. eauto. }
    repeat split; auto using operand_factor, factor_summand.
Qed.

Lemma read_text t : exists e, read_from (text t) [] (start Group) None = Some e /\ assoc (tree t) e.
Proof.
  destruct (rendered t) as [H _]. destruct (H [] [] (start Group)) as (f & a & E & O & A); simpl; auto.
  rewrite app_nil_r in E. simpl in *. eauto.
Qed.
End Reading.
