(** The value of the rendered text. *)

From Coq Require Import ZArith Bool List String Reals Lra Lia.
From Verif Require Import Model.Num Model.Py Model.Dists Model.Models Model.Table Model.PyNum Model.Sql.
From Verif Require Import Spec.SqlReading Proofs.Param Proofs.PyNum Proofs.SqlReading.
Import ListNotations.
Open Scope list_scope.
Open Scope R_scope.

Lemma int_part_IZR z : Int_part (IZR z) = z.
Proof.
  unfold Int_part. assert (up (IZR z) = (z + 1)%Z) as ->; [|lia].
  symmetry. apply tech_up; rewrite plus_IZR; lra.
Qed.

Lemma sql_pow_2 x : sql_pow x 2 = Some (x ^ 2).
Proof.
  unfold sql_pow. destruct (Rlt_dec 0 x) as [H|H].
  - rewrite <- (Rpower_pow 2 x H). reflexivity.
  - destruct (Rlt_dec x 0) as [H'|H'].
    + rewrite int_part_IZR. destruct (Req_EM_T 2 2) as [_|]; [|lra]. reflexivity.
    + assert (x = 0) as -> by lra. destruct (Rlt_dec 0 2) as [_|]; [|lra]. f_equal. simpl. lra.
Qed.

Lemma not_int_half z : IZR z <> / 2.
Proof.
  intros H. assert (E : IZR (2 * z) = IZR 1) by (rewrite mult_IZR, H; lra). apply eq_IZR in E. lia.
Qed.

Lemma sql_pow_half x : sql_pow x (/ 2) = (if Rlt_dec x 0 then None else Some (sqrt x)).
Proof.
  unfold sql_pow. destruct (Rlt_dec 0 x) as [H|H].
  - destruct (Rlt_dec x 0); [lra|]. f_equal. now apply Rpower_sqrt.
  - destruct (Rlt_dec x 0) as [H'|H'].
    + destruct (Req_EM_T (/ 2) (IZR (Int_part (/ 2)))) as [E|]; [|reflexivity].
      exfalso. symmetry in E. now apply not_int_half in E.
    + destruct (Rlt_dec 0 (/ 2)); [|lra]. assert (x = 0) as -> by lra. now rewrite sqrt_0.
Qed.

Lemma sql_pow_mhalf x : sql_pow x (0 - / 2) = (if Req_EM_T x 0 then None else if Rlt_dec x 0 then None else Some (/ sqrt x)).
Proof.
  unfold sql_pow. destruct (Rlt_dec 0 x) as [H|H].
  - destruct (Req_EM_T x 0); [lra|]. destruct (Rlt_dec x 0); [lra|]. f_equal.
    replace (0 - / 2) with (- (/ 2)) by lra. now rewrite Rpower_Ropp, Rpower_sqrt.
  - destruct (Rlt_dec x 0) as [H'|H'].
    + destruct (Req_EM_T x 0); [lra|].
      destruct (Req_EM_T (0 - / 2) (IZR (Int_part (0 - / 2)))) as [E|]; [|reflexivity].
      exfalso. apply (not_int_half (- Int_part (0 - / 2))). rewrite opp_IZR. lra.
    + destruct (Req_EM_T x 0); [|lra]. destruct (Rlt_dec 0 (0 - / 2)); [lra|].
      destruct (Req_EM_T (0 - / 2) 0); [lra|reflexivity].
Qed.

Section Values.
Variable arctan2 : R -> R -> R.
Variable row : string -> option num.
Notation exp := (sqlexp (pynum (res R))).

(** Evaluation that forgets the types. *)
Definition op_real (o : binop) (a b : R) : option R :=
  match o with
  | Add => Some (a + b) | Sub => Some (a - b) | Mul => Some (a * b)
  | Div => if Req_EM_T b 0 then None else Some (a / b)
  end.
Definition ev (e : exp) : option R := option_map real (sql_eval arctan2 false row e).

Lemma ev_bin o a b : ev (SBin o a b) = opt2 (op_real o) (ev a) (ev b).
Proof.
  unfold ev. simpl. destruct (sql_eval arctan2 false row a) as [x|]; [|reflexivity].
  destruct (sql_eval arctan2 false row b) as [y|]; [|reflexivity]. simpl.
  destruct o; simpl.
  - destruct x, y; simpl; now rewrite ?plus_IZR.
  - destruct x, y; simpl; now rewrite ?minus_IZR.
  - destruct x, y; simpl; now rewrite ?mult_IZR.
  - destruct (Req_EM_T (real y) 0); reflexivity.
Qed.

Lemma real_call1 f x y : real x = real y -> sql_call1 f x = sql_call1 f y.
Proof. unfold sql_call1. now intros ->. Qed.
Lemma real_call2 f x y x' y' : real x = real x' -> real y = real y' -> sql_call2 arctan2 f x y = sql_call2 arctan2 f x' y'.
Proof. unfold sql_call2. now intros -> ->. Qed.

Lemma ev_call1 f a : ev (SCall1 f a) = match ev a with Some x => option_map real (sql_call1 f (SFlt x)) | None => None end.
Proof.
  unfold ev. simpl. destruct (sql_eval arctan2 false row a) as [x|]; [|reflexivity]. simpl. try (f_equal; now apply real_call1).
Qed.
Lemma ev_call2 f a b : ev (SCall2 f a b) =
  opt2 (fun x y => option_map real (sql_call2 arctan2 f (SFlt x) (SFlt y))) (ev a) (ev b).
Proof.
  unfold ev. simpl. destruct (sql_eval arctan2 false row a) as [x|]; [|reflexivity].
  destruct (sql_eval arctan2 false row b) as [y|]; [|reflexivity]. simpl. try (f_equal; now apply real_call2).
Qed.

Lemma assoc_ev e e' : assoc e e' -> ev e = ev e'.
Proof.
  intros H. induction H as [|a b c _ IH1 _ IH2|o a a' b b' _ IH1 _ IH2|f a a' _ IH|f a a' b b' _ IH1 _ IH2|o a b c Ho|o a b c Ho].
  - reflexivity.
  - congruence.
  - rewrite !ev_bin. congruence.
  - rewrite !ev_call1. now rewrite IH.
  - rewrite !ev_call2. now rewrite IH1, IH2.
  - rewrite !ev_bin. destruct (ev a), (ev b), (ev c); try reflexivity; destruct o; try discriminate; simpl; f_equal; lra.
  - rewrite !ev_bin. destruct (ev a), (ev b), (ev c); try reflexivity; destruct o; try discriminate; simpl; try reflexivity.
    + f_equal; lra.
    + destruct (Req_EM_T r1 0); [reflexivity|]. simpl. f_equal. now field.
Qed.

(** ** Comments *)

Lemma strip_nothing toks : no_comment toks -> strip_comment negative toks = toks.
Proof.
  induction toks as [|t toks IH]; intros H; [reflexivity|]. destruct H as [H1 H2]. specialize (IH H2).
  destruct t as [p|c|[]| | |f|]; simpl strip_comment; try now rewrite IH.
  destruct toks as [|t' toks]; [reflexivity|].
  destruct t' as [p|c|o| | |f|]; try now rewrite IH. rewrite H1. now rewrite IH.
Qed.

Lemma column_ev t : no_comment (text t) ->
  exists e, read negative (text t) = Some e /\ assoc (tree t) e /\
  option_map real (column arctan2 false row (text t)) = ev (tree t).
Proof.
  intros H. unfold column, read. rewrite strip_nothing by exact H.
  destruct (read_text t) as (e & E & A). exists e. rewrite E. split; [reflexivity|]. split; [exact A|].
  symmetry. apply (assoc_ev _ _ A).
Qed.

(** ** The number type of SQL values against Python numbers *)

Definition to_option (r : res R) : option R := match r with Ok x => Some x | Raise _ => None end.
Definition stands (v : value (res R)) (r : res R) : Prop := ev (tree (wrap v)) = to_option r.

Lemma literal_float (p : pynum (res R)) : option_map real (literal p) = to_option (float (NC := NumPy) p).
Proof. destruct p as [z|[x|e]]; reflexivity. Qed.

Lemma stands_py p r : stands (Py p) r <-> to_option (float (NC := NumPy) p) = to_option r.
Proof. unfold stands, ev. simpl. now rewrite literal_float. Qed.

Lemma to_option_py2 f (g : R -> R -> option R) a b : (forall x y, to_option (f x y) = g x y) ->
  to_option (py2 f a b) = opt2 g (to_option a) (to_option b).
Proof. intros H. destruct a, b; simpl; auto. Qed.

Lemma float_arith o p q :
  to_option (float (NC := NumPy) (py_arith (NC := NumPy) o p q))
  = opt2 (op_real o) (to_option (float (NC := NumPy) p)) (to_option (float (NC := NumPy) q)).
Proof.
  assert (D : forall x y, to_option (py_div x y) = op_real Div x y).
  { intros x y. unfold py_div. simpl. destruct (Req_EM_T y 0); reflexivity. }
  destruct o, p as [z|[x|e]], q as [z'|[x'|e']]; simpl; rewrite ?plus_IZR, ?minus_IZR, ?mult_IZR; try reflexivity; apply D.
Qed.

Lemma stands_arith o f a a' r r' :
  (forall x y, to_option (f x y) = op_real o x y) ->
  stands a r -> stands a' r' -> stands (arith (NC := NumPy) o a a') (py2 f r r').
Proof.
  intros Hf Ha Hb. unfold stands in *. rewrite (to_option_py2 _ _ _ _ Hf), <- Ha, <- Hb.
  destruct a as [p|t], a' as [q|t']; simpl; try apply ev_bin.
  unfold ev. simpl. rewrite !literal_float. apply float_arith.
Qed.

Lemma stands_power py ex f a r :
  (forall p, to_option (float (NC := NumPy) (py p)) = to_option (py1 f (float (NC := NumPy) p))) ->
  (forall x, exists y, ev (SNum ex) = Some y /\ sql_pow x y = to_option (f x)) ->
  stands a r -> stands (power py ex a) (py1 f r).
Proof.
  intros Hp Hf H. unfold stands in *. destruct a as [p|t]; simpl.
  - unfold ev in *. simpl in *. rewrite literal_float in *. rewrite Hp. destruct r; destruct (float p); simpl in *; congruence.
  - rewrite ev_call2. simpl in H. rewrite H. destruct r as [x|e]; simpl; [|reflexivity].
    destruct (Hf x) as (y & -> & E). simpl. unfold sql_call2. simpl. rewrite E. destruct (f x); reflexivity.
Qed.

Lemma sql_rel : NumRel (NumSql (NC := NumPy)) NumPy Ufuncs_sql (Ufuncs_py arctan2) stands.
Proof.
  split; simpl.
  - intros. now apply stands_arith.
  - intros. now apply stands_arith.
  - intros. now apply stands_arith.
  - intros. apply stands_arith; auto. intros x y. unfold py_div. simpl. destruct (Req_EM_T y 0); reflexivity.
  - intros z. reflexivity.
  - reflexivity.
  - intros a b H. apply stands_power; auto.
    + intros [z|[x|e]]; simpl; try reflexivity. f_equal. rewrite mult_IZR. lra.
    + intros x. exists 2. split; [reflexivity|]. apply sql_pow_2.
  - intros a b H. apply stands_power; auto.
    + intros x. exists (/ 2). split; [reflexivity|]. rewrite sql_pow_half. unfold py_sqrt. destruct (Rlt_dec x 0); reflexivity.
  - intros a b H. apply stands_power; auto.
    + intros x. exists (0 - / 2). split; [reflexivity|]. rewrite sql_pow_mhalf. unfold py_rsqrt.
      destruct (Req_EM_T x 0); [reflexivity|]. destruct (Rlt_dec x 0); reflexivity.
  - intros a b H. unfold stands in *. simpl. rewrite ev_call1, H. destruct b as [x|e]; [|reflexivity]. simpl.
    unfold sql_call1, py_ln. simpl. destruct (Rlt_dec 0 x); reflexivity.
  - intros a a' b b' H H'. unfold stands in *. simpl. rewrite ev_call2, H, H'. destruct b, b'; reflexivity.
  - intros a b H. unfold stands in *. simpl. rewrite ev_call1, H. destruct b as [x|e]; reflexivity.
  - intros a b H. unfold stands in *. simpl. rewrite ev_call1, H. destruct b as [x|e]; reflexivity.
  - intros a a' b b' H H'. unfold stands in *. simpl. rewrite ev_call2, H, H'. destruct b, b'; reflexivity.
Qed.

Notation reads_as := (reads_as arctan2 row).
Notation float_arg := (float_arg row).

Lemma reads_stands v x : reads_as v x -> stands v (Ok x).
Proof. intros [H E]. destruct (column_ev _ H) as (e & _ & _ & E'). unfold stands. now rewrite <- E', E. Qed.

Lemma run_sql_stands f args xs : Forall2 reads_as args xs ->
  res_rel stands (run (NA := NumSql (NC := NumPy)) Ufuncs_sql f args) (run (NA := NumPy) (Ufuncs_py arctan2) f (map Ok xs)).
Proof.
  intros H. apply (run_rel _ _ _ _ _ sql_rel). induction H; simpl; constructor; auto using reads_stands.
Qed.

Lemma sequence_Ok (l : list (res R)) ys : sequence l = Ok ys <-> l = map Ok ys.
Proof.
  split.
  - revert ys. induction l as [|r l IH]; simpl; intros ys H. now injection H as <-.
    destruct r as [x|]; [|discriminate]. simpl in H. destruct (sequence l) as [l'|]; [|discriminate]. simpl in H.
    injection H as <-. simpl. f_equal. now apply IH.
  - intros ->. induction ys; simpl; auto. now rewrite IHys.
Qed.

Lemma sql_forward f args xs ys :
  Forall2 reads_as args xs -> run_py arctan2 f xs = Ok ys ->
  exists out, run (NA := NumSql (NC := NumPy)) Ufuncs_sql f args = Ok out /\
  Forall2 (fun v y => no_comment (text (wrap v)) -> option_map real (column arctan2 false row (text (wrap v))) = Some y) out ys.
Proof.
  intros H E. pose proof (run_sql_stands f _ _ H) as G. unfold run_py in E.
  destruct (run (NA := NumPy) (Ufuncs_py arctan2) f (map Ok xs)) as [rs|]; [|discriminate]. simpl in E.
  apply sequence_Ok in E. subst rs.
  destruct (run (NA := NumSql (NC := NumPy)) Ufuncs_sql f args) as [out|]; [|contradiction]. exists out. split; [reflexivity|].
  simpl in G. revert out G. induction ys as [|y ys IH]; intros out G; inversion G; subst; constructor; auto.
  intros N. destruct (column_ev _ N) as (e & _ & _ & ->). assumption.
Qed.

Lemma sql_backward f args xs out ys :
  Forall2 reads_as args xs -> run (NA := NumSql (NC := NumPy)) Ufuncs_sql f args = Ok out ->
  Forall2 reads_as out ys -> run_py arctan2 f xs = Ok ys.
Proof.
  intros H E F. pose proof (run_sql_stands f _ _ H) as G. rewrite E in G. unfold run_py.
  destruct (run (NA := NumPy) (Ufuncs_py arctan2) f (map Ok xs)) as [rs|]; [|contradiction]. simpl in *.
  apply sequence_Ok. clear -G F. revert rs G. induction F as [|v y out ys Hv _ IH]; intros rs G; inversion G; subst; simpl; auto.
  f_equal; auto. apply reads_stands in Hv. unfold stands in *. rewrite Hv in *. destruct y0; simpl in *; congruence.
Qed.

(** ** Integer division *)

Fixpoint int_typed (e : exp) : bool :=
  match e with
  | SNum p => match p with PyInt _ => true | PyFloat _ => false end
  | SCol c => match row c with Some (SInt _) => true | _ => false end
  | SBin _ a b => int_typed a && int_typed b
  | _ => false
  end.
Fixpoint safe (e : exp) : Prop :=
  match e with
  | SBin o a b => safe a /\ safe b /\ (o = Div -> int_typed a && int_typed b = false)
  | SCall1 _ a => safe a
  | SCall2 _ a b => safe a /\ safe b
  | _ => True
  end.

Lemma assoc_typed e e' : assoc e e' -> int_typed e = int_typed e' /\ (safe e -> safe e').
Proof.
  intros H. induction H as [|a b c _ [I1 S1] _ [I2 S2]|o a a' b b' _ [I1 S1] _ [I2 S2]|f a a' _ [I1 S1]|f a a' b b' _ [I1 S1] _ [I2 S2]|o a b c Ho|o a b c Ho];
  simpl.
  - auto.
  - split; auto. congruence.
  - rewrite I1, I2. split; auto. intuition.
  - auto.
  - intuition.
  - rewrite andb_assoc. split; auto. intros (A & (B & D & E) & _). repeat split; auto; intros N; [discriminate N|]. rewrite N in Ho. discriminate.
  - rewrite andb_assoc. split; auto. intros (A & (B & D & E) & _). repeat split; auto. intros N; discriminate.
    intros N. specialize (E N). rewrite <- andb_assoc, E. apply andb_false_r.
Qed.

Lemma safe_typed e : safe e ->
  sql_eval arctan2 true row e = sql_eval arctan2 false row e /\
  forall x, sql_eval arctan2 false row e = Some x -> match x with SInt _ => true | SFlt _ => false end = int_typed e.
Proof.
  induction e as [p|c|o a IHa b IHb|f a IHa|f a IHa b IHb]; simpl; intros H.
  - split; auto. destruct p as [z|[r|]]; simpl; intros x E; inversion E; reflexivity.
  - split; auto. intros x E. rewrite E. destruct x; reflexivity.
  - destruct H as (Sa & Sb & D). destruct (IHa Sa) as [Ea Ta], (IHb Sb) as [Eb Tb]. rewrite Ea, Eb.
    destruct (sql_eval arctan2 false row a) as [x|]; [|split; [reflexivity|discriminate]].
    destruct (sql_eval arctan2 false row b) as [y|]; [|split; [reflexivity|discriminate]]. simpl.
    specialize (Ta x eq_refl). specialize (Tb y eq_refl). rewrite <- Ta, <- Tb in *.
    destruct o; try (destruct x, y; simpl; split; auto; intros u E; inversion E; reflexivity).
    specialize (D eq_refl). destruct x, y; simpl in *; try discriminate;
    destruct (Req_EM_T _ 0); split; auto; intros u E; inversion E; reflexivity.
  - destruct (IHa H) as [Ea _]. rewrite Ea. split; auto. intros x. destruct (sql_eval arctan2 false row a); [|discriminate].
    unfold sql_call1. repeat match goal with |- context [if ?b then _ else _] => destruct b end; intros E; inversion E; reflexivity.
  - destruct H as [Sa Sb]. destruct (IHa Sa) as [Ea _], (IHb Sb) as [Eb _]. rewrite Ea, Eb. split; auto. intros x.
    destruct (sql_eval arctan2 false row a); [|discriminate]. destruct (sql_eval arctan2 false row b); [|discriminate]. simpl.
    unfold sql_call2. destruct (String.eqb f "POW"). { destruct (sql_pow _ _); intros E; inversion E; reflexivity. }
    repeat match goal with |- context [if ?b then _ else _] => destruct b end; intros E; inversion E; reflexivity.
Qed.

Definition well_typed (v : value (res R)) : Prop :=
  match v with Py _ => True | Sql t => int_typed (tree t) = false /\ safe (tree t) end.

Lemma well_typed_arith o a b : well_typed a -> well_typed b -> well_typed (arith (NC := NumPy) o a b).
Proof.
  destruct a as [p|t], b as [q|t']; simpl; auto; intros.
  - destruct H0 as [-> S]. rewrite andb_false_r. auto.
  - destruct H as [-> S]. auto.
  - destruct H as [-> S], H0 as [_ S']. auto.
Qed.

Lemma well_typed_rel : NumRel (NumSql (NC := NumPy)) (NumSql (NC := NumPy)) Ufuncs_sql Ufuncs_sql (fun a b => a = b /\ well_typed a).
Proof.
  assert (S : forall a, well_typed a -> safe (tree (wrap a))). { intros [p|t]; simpl; tauto. }
  split; simpl.
  1-4: intros ? ? ? ? [-> H] [-> H']; split; auto using well_typed_arith.
  1-2: auto.
  1-3: intros a b [-> H]; split; auto; destruct b; simpl in *; tauto.
  - intros a b [-> H]; split; auto; simpl; auto.
  - intros ? ? ? ? [-> H] [-> H']; split; auto; simpl; auto.
  - intros a b [-> H]; split; auto; simpl; auto.
  - intros a b [-> H]; split; auto; simpl; auto.
  - intros ? ? ? ? [-> H] [-> H']; split; auto; simpl; auto.
Qed.

Lemma well_typed_column v : well_typed v -> no_comment (text (wrap v)) ->
  column arctan2 true row (text (wrap v)) = column arctan2 false row (text (wrap v)).
Proof.
  intros H N. destruct (column_ev _ N) as (e & E & A & _). unfold column. rewrite E.
  apply safe_typed. apply (proj2 (assoc_typed _ _ A)). destruct v; simpl in *; tauto.
Qed.

Lemma sql_float_columns f args out :
  Forall float_arg args -> run (NA := NumSql (NC := NumPy)) Ufuncs_sql f args = Ok out ->
  Forall (fun v => no_comment (text (wrap v)) ->
    column arctan2 true row (text (wrap v)) = column arctan2 false row (text (wrap v))) out.
Proof.
  intros H E.
  assert (F : Forall2 (fun a b => a = b /\ well_typed a) args args).
  { clear E. induction H as [|a args Ha _ IH]; constructor; auto. split; auto. destruct a as [p|[]]; simpl in *; try tauto.
    split; auto. destruct (row name) as [[z|]|]; auto. exfalso. now apply (Ha z). }
  pose proof (run_rel _ _ _ _ _ well_typed_rel f _ _ F) as G. rewrite E in G. simpl in G.
  clear -G. induction G as [|a b out out' [-> W] _ IH]; constructor; auto using well_typed_column.
Qed.
End Values.
