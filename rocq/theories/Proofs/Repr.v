(** Reading back what [repr] writes. *)

From Coq Require Import ZArith Bool String Ascii Permutation Reals Lia.
From Verif Require Import Model.Num Model.Py Model.Table Model.NdArray Model.SliceModel Model.Dataclass Model.Repr.
From Verif Require Import Spec.Dataclass Spec.Repr Proofs.Dataclass.
From Coq Require Import List.
Import ListNotations.
Open Scope string_scope.
Open Scope list_scope.

Fixpoint lacks (c : ascii) (s : string) : bool :=
  match s with EmptyString => true | String a s => negb (Ascii.eqb a c) && lacks c s end.
Lemma lacks_app c a b : lacks c (a ++ b)%string = lacks c a && lacks c b.
Proof. induction a; simpl; [reflexivity|]. now rewrite IHa, andb_assoc. Qed.
Lemma cut_app c a b : lacks c a = true -> cut c (a ++ String c b)%string = Some (a, b).
Proof.
  induction a as [|x a IH]; simpl; intros H.
  - now rewrite Ascii.eqb_refl.
  - apply andb_true_iff in H as [H1 H2]. apply negb_true_iff in H1. rewrite H1, (IH H2). reflexivity.
Qed.
Lemma bare_lacks c s : In c [","%char; "("%char; ")"%char; "["%char; "]"%char; "="%char; " "%char] -> bare s = true -> lacks c s = true.
Proof.
  intros Hc. induction s as [|a s IH]; intros H; [reflexivity|]; simpl bare in H; simpl lacks.
  apply andb_true_iff in H as [H1 H2]. rewrite (IH H2), andb_true_r.
  apply negb_true_iff in H1. apply negb_true_iff. destruct (Ascii.eqb_spec a c) as [->|]; [|reflexivity].
  exfalso. simpl in Hc. repeat (destruct Hc as [<-|Hc]; [discriminate H1|]). exact Hc.
Qed.
Lemma strip_bare s : bare s = true -> strip s = s.
Proof.
  destruct s as [|a s]; [reflexivity|]. intros H. apply (bare_lacks " "%char) in H; [|simpl; tauto].
  simpl in *. apply andb_true_iff in H as [H _]. apply negb_true_iff in H. now rewrite H.
Qed.

Fixpoint walk (depth : nat) (s : string) : option nat :=
  match s with
  | EmptyString => Some depth
  | String a s => if Ascii.eqb a ","%char && Nat.eqb depth 0 then None else walk (depth_after a depth) s
  end.
Lemma walk_app a : forall d b, walk d (a ++ b)%string = match walk d a with Some d' => walk d' b | None => None end.
Proof. induction a as [|x a IH]; simpl; intros d b; [reflexivity|]. destruct (_ && _); [reflexivity|apply IH]. Qed.
Lemma walk_pieces a : forall d d' b, walk d a = Some d' -> pieces d (a ++ b)%string = match pieces d' b with h :: t => (a ++ h)%string :: t | [] => [] end.
Proof.
  induction a as [|x a IH]; intros d d' b; simpl.
  - intros [= ->]. destruct (pieces d' b); reflexivity.
  - destruct (_ && _); [discriminate|]. intros H. rewrite (IH _ _ b H). destruct (pieces d' b); reflexivity.
Qed.
Lemma walk_bare s : forall d, bare s = true -> walk d s = Some d.
Proof.
  induction s as [|a s IH]; intros d H; [reflexivity|].
  pose proof (bare_lacks ","%char _ ltac:(simpl; tauto) H) as H1. pose proof (bare_lacks "["%char _ ltac:(simpl; tauto) H) as H2. pose proof (bare_lacks "]"%char _ ltac:(simpl; tauto) H) as H3.
  simpl in H1, H2, H3. apply andb_true_iff in H1 as [H1 _], H2 as [H2 _], H3 as [H3 _]. apply negb_true_iff in H1, H2, H3.
  simpl. rewrite H1. simpl. unfold depth_after. rewrite H2, H3. apply IH. simpl in H. now apply andb_true_iff in H as [_ H].
Qed.

Definition tidy (s : string) : Prop := walk 0 s = Some 0 /\ strip s = s.
Lemma append_nil s : (s ++ "")%string = s.
Proof. induction s; simpl; congruence. Qed.
Lemma pieces_concat l : l <> [] -> Forall tidy l -> map strip (pieces 0 (String.concat ", " l)) = l.
Proof.
  intros N F. assert (E : exists h t, pieces 0 (String.concat ", " l) = h :: t /\ h = hd "" l /\ map strip t = tl l).
  { induction F as [|s l [Hw Hs] F IH]; [easy|]. destruct l as [|s' l].
    - exists s, []. cbn [String.concat]. split; [|now split].
      rewrite <- (append_nil s) at 1. rewrite (walk_pieces _ _ _ _ Hw). simpl. now rewrite append_nil.
    - destruct (IH ltac:(discriminate)) as (h & t & E & Eh & Et). cbn [hd tl] in *.
      exists s, (String " " h :: t). change (String.concat ", " (s :: s' :: l)) with (s ++ String "," (String " " (String.concat ", " (s' :: l))))%string.
      rewrite (walk_pieces _ _ _ _ Hw).
      change (pieces 0 (String "," (String " " (String.concat ", " (s' :: l))))) with ("" :: match pieces 0 (String.concat ", " (s' :: l)) with h :: t => String " " h :: t | [] => [] end).
      rewrite E, append_nil. split; [reflexivity|split; [reflexivity|]]. cbn [map]. rewrite Et. cbn. now rewrite Eh. }
  destruct E as (h & t & -> & -> & Et). destruct l as [|s l]; [easy|]. cbn [map hd tl] in *. rewrite Et. f_equal. inversion F as [|? ? [_ Hs]]. exact Hs.
Qed.

Lemma lacks_concat c l : lacks c ", " = true -> Forall (fun s => lacks c s = true) l -> lacks c (String.concat ", " l) = true.
Proof.
  intros Hc F. induction F as [|s l Hs F IH]; [reflexivity|]. destruct l as [|s' l]; [exact Hs|].
  change (String.concat ", " (s :: s' :: l)) with (s ++ ", " ++ String.concat ", " (s' :: l))%string. now rewrite !lacks_app, Hs, Hc, IH.
Qed.
Lemma walk_concat l : Forall (fun s => bare s = true) l -> walk 1 (String.concat ", " l) = Some 1.
Proof.
  intros F. induction F as [|s l Hs F IH]; [reflexivity|]. destruct l as [|s' l]; [now apply walk_bare|].
  change (String.concat ", " (s :: s' :: l)) with (s ++ ", " ++ String.concat ", " (s' :: l))%string. rewrite walk_app, (walk_bare _ _ Hs). exact IH.
Qed.

Lemma not_bracket {A} s (f : string -> A) (y : A) : bare s = true -> match s with String "["%char s' => f s' | _ => y end = y.
Proof. destruct s as [|[[][][][][][][][]] s]; intros H; try reflexivity. discriminate H. Qed.

Section Reading.
  Variables (show : R -> string) (show_array : nd R -> string) (number : string -> option R).
  Notation text := (repr_value show show_array).

  Lemma read_numbers l : (forall r, In r l -> prints show number r) -> read_list number (String.concat ", " (map show l) ++ "]")%string = Some l.
  Proof.
    intros H. assert (B : Forall (fun s => bare s = true) (map show l)).
    { apply Forall_forall. intros s Hs. apply in_map_iff in Hs as (r & <- & Hr). apply (H r Hr). }
    unfold read_list. rewrite cut_app.
    2:{ apply lacks_concat; [reflexivity|]. eapply Forall_impl; [|exact B]. intros s. apply bare_lacks. simpl. tauto. }
    destruct l as [|r l]; [reflexivity|].
    destruct (String.eqb_spec (String.concat ", " (map show (r :: l))) "") as [E|_].
    { exfalso. destruct (H r (or_introl eq_refl)) as (_ & _ & N & _). cbn [map] in E. destruct l; cbn in E; [easy|]. destruct (show r); [easy|discriminate]. }
    rewrite <- (map_map strip number), pieces_concat.
    - clear B. induction (r :: l) as [|x m IH]; [reflexivity|]. cbn [map all]. rewrite (proj1 (H x (or_introl eq_refl))), IH; [reflexivity|]. intros y Hy. apply H. now right.
    - discriminate.
    - eapply Forall_impl; [|exact B]. intros s Hs. split; [now apply walk_bare|now apply strip_bare].
  Qed.

  Lemma read_field fresh v x : is_plain v x -> printable show number x ->
    exists w, read_value number fresh (text v) = Some w /\ is_plain w x.
  Proof.
    intros Hv Hx. destruct x as [r|b| |l]; cbn [is_plain printable] in *.
    - destruct Hv as [i ->]. destruct Hx as (Hr & Hb & _ & N1 & N2 & N3). cbn. unfold read_value.
      apply String.eqb_neq in N1, N2, N3. rewrite N1, N2, N3, not_bracket by exact Hb. rewrite Hr. eexists. split; [reflexivity|]. now eexists.
    - destruct Hv as [i ->]. destruct b; cbn; eexists; (split; [reflexivity|]); now eexists.
    - subst v. now exists VNone.
    - destruct Hv as [i ->].
      change (read_value number fresh (text (VParam i (PList l)))) with (option_map (fun l => VParam fresh (PList l)) (read_list number (String.concat ", " (map show l) ++ "]")%string)).
      rewrite (read_numbers _ Hx). eexists. split; [reflexivity|]. now eexists.
  Qed.

  Lemma walk_text v x : is_plain v x -> printable show number x -> walk 0 (text v) = Some 0 /\ lacks ")"%char (text v) = true.
  Proof.
    intros Hv Hx. destruct x as [r|b| |l]; cbn [is_plain printable] in *.
    - destruct Hv as [i ->]. destruct Hx as (_ & Hb & _). cbn. split; [now apply walk_bare|]. apply bare_lacks; [simpl; tauto|exact Hb].
    - destruct Hv as [i ->]. now destruct b.
    - now subst v.
    - destruct Hv as [i ->]. assert (B : Forall (fun s => bare s = true) (map show l)).
      { apply Forall_forall. intros s Hs. apply in_map_iff in Hs as (r & <- & Hr). apply (Hx r Hr). }
      change (text (VParam i (PList l))) with ("[" ++ String.concat ", " (map show l) ++ "]")%string. rewrite !walk_app, !lacks_app. split.
      + change (walk 0 "[") with (Some 1). cbn iota. now rewrite walk_app, (walk_concat _ B).
      + rewrite lacks_concat; [reflexivity|reflexivity|]. eapply Forall_impl; [|exact B]. intros s. apply bare_lacks. simpl. tauto.
  Qed.

  Definition argument (p : string * value) : string := (fst p ++ "=" ++ text (snd p))%string.
  Lemma read_args names : forall values xs fresh, Forall (fun s => bare s = true /\ s <> "") names -> length values = length names ->
    Forall2 is_plain values xs -> Forall (printable show number) xs ->
    exists ws, read_arguments number fresh (map argument (combine names values)) = Some (combine names ws) /\ length ws = length names /\ Forall2 is_plain ws xs.
  Proof.
    induction names as [|n names IH]; intros values xs fresh Fn L F P.
    - destruct values; [|discriminate]. inversion F; subst. exists []. repeat split. constructor.
    - destruct values as [|v values]; [discriminate|]. inversion F as [|? x ? xs' Hv F']; subst. inversion P; subst. inversion Fn as [|? ? [Hb Hn] Fn']; subst.
      destruct (IH values xs' (S fresh) Fn' ltac:(simpl in L; lia) F' ltac:(assumption)) as (ws & E & Lw & Fw).
      destruct (read_field fresh v x Hv ltac:(assumption)) as (w & Ew & Hw).
      exists (w :: ws). cbn [combine map read_arguments]. rewrite E. split; [|split; [simpl; lia|now constructor]].
      assert (S1 : strip (argument (n, v)) = argument (n, v)).
      { destruct n as [|a n]; [easy|]. unfold argument. cbn [fst]. pose proof (bare_lacks " "%char _ ltac:(simpl; tauto) Hb) as Hl. simpl in Hl. apply andb_true_iff in Hl as [Hl _]. apply negb_true_iff in Hl. simpl. now rewrite Hl. }
      rewrite S1. unfold read_argument, argument. cbn [fst snd]. change (n ++ "=" ++ text v)%string with (n ++ String "=" (text v))%string.
      rewrite cut_app by (apply bare_lacks; [simpl; tauto|exact Hb]). now rewrite Ew.
  Qed.

  Lemma documented_bare : forall c names, In (c, names) documented -> bare c = true /\ Forall (fun s => bare s = true /\ s <> "") names /\ names <> [].
  Proof.
    assert (H : forallb (fun p => bare (fst p) && forallb (fun s => bare s && negb (String.eqb s "")) (snd p) && negb (Nat.eqb (length (snd p)) 0)) documented = true) by (vm_compute; reflexivity).
    intros c names Hc. rewrite forallb_forall in H. specialize (H _ Hc). cbn [fst snd] in H. apply andb_true_iff in H as [H H3]. apply andb_true_iff in H as [H1 H2].
    split; [exact H1|]. split; [|intros ->; discriminate]. apply Forall_forall. intros s Hs. rewrite forallb_forall in H2. specialize (H2 s Hs). apply andb_true_iff in H2 as [A B].
    split; [exact A|]. intros ->. discriminate.
  Qed.

  Lemma read_repr c names values xs fresh : In (c, names) documented -> length values = length names ->
    Forall2 is_plain values xs -> Forall (printable show number) xs ->
    exists ws, read_call number fresh (repr show show_array (mkDobj c (combine names values))) = Some (c, combine names ws) /\
      length ws = length names /\ Forall2 is_plain ws xs.
  Proof.
    intros Hc L F P. destruct (documented_bare c names Hc) as (Bc & Bn & Nn).
    destruct (read_args names values xs fresh Bn L F P) as (ws & E & Lw & Fw). exists ws. split; [|now split].
    unfold read_call, repr. cbn [d_class d_values]. change (fun p => (fst p ++ "=" ++ text (snd p))%string) with argument.
    set (body := String.concat ", " (map argument (combine names values))).
    change (c ++ "(" ++ body ++ ")")%string with (c ++ String "(" (body ++ String ")" ""))%string.
    rewrite cut_app by (apply bare_lacks; [simpl; tauto|exact Bc]).
    assert (A : Forall (fun s => tidy s /\ lacks ")"%char s = true) (map argument (combine names values))).
    { clear E Fw body. revert values xs L F P Bn. clear. induction names as [|n names IH]; intros values xs L F P Bn; [constructor|].
      destruct values as [|v values]; [discriminate|]. inversion F as [|? x ? xs' Hv F']; subst. inversion P; subst. inversion Bn as [|? ? [Hb Hn] Bn']; subst.
      cbn [combine map]. constructor; [|eapply IH; try eassumption; simpl in L; lia].
      destruct (walk_text v x Hv ltac:(assumption)) as [W Lk]. unfold argument. cbn [fst snd]. split; [split|].
      - rewrite walk_app, (walk_bare _ _ Hb). exact W.
      - destruct n as [|a n]; [easy|]. pose proof (bare_lacks " "%char _ ltac:(simpl; tauto) Hb) as Hl. simpl in Hl. apply andb_true_iff in Hl as [Hl _]. apply negb_true_iff in Hl. simpl. now rewrite Hl.
      - rewrite !lacks_app, Lk, (bare_lacks ")"%char n) by (simpl; tauto || exact Hb). reflexivity. }
    rewrite cut_app.
    2:{ apply lacks_concat; [reflexivity|]. eapply Forall_impl; [|exact A]. now intros s [_ H]. }
    assert (G : map strip (pieces 0 body) = map argument (combine names values)).
    { apply pieces_concat; [|eapply Forall_impl; [|exact A]; now intros s [H _]]. destruct names; [easy|]. destruct values; [discriminate|]. discriminate. }
    assert (R1 : forall l k, Forall tidy (map strip l) -> read_arguments number k (map strip l) = read_arguments number k l).
    { clear. induction l as [|s l IH]; intros k T; [reflexivity|]. cbn [map] in T. inversion T as [|? ? [_ Hs] T']; subst. cbn [map read_arguments]. rewrite Hs, (IH _ T'). reflexivity. }
    rewrite <- R1, G, E; [reflexivity|]. rewrite G. eapply Forall_impl; [|exact A]. now intros s [H _].
  Qed.
End Reading.

Lemma is_plain_inj v x y : is_plain v x -> is_plain v y -> x = y.
Proof.
  intros H G. destruct x as [r|b| |l], y as [s|c| |m]; cbn in H, G; (match type of H with ex _ => destruct H as [i H] | _ => idtac end); (match type of G with ex _ => destruct G as [j G] | _ => idtac end); rewrite H in G; try discriminate G; try reflexivity.
  - pose proof (f_equal (fun v => match v with VParam _ (PArr a) => nd_entry a [] | _ => 0%R end) G) as E. cbn in E. now rewrite E.
  - injection G as _ E. now rewrite E.
  - injection G as _ E. now rewrite E.
Qed.
Lemma plains_inj vs xs ys : Forall2 is_plain vs xs -> Forall2 is_plain vs ys -> xs = ys.
Proof. intros F. revert ys. induction F; intros ys G; inversion G; subst; [reflexivity|]. f_equal; [eapply is_plain_inj; eassumption|auto]. Qed.

Lemma eq_same v w x : is_plain v x -> is_plain w x -> eq_value v w = Ok true.
Proof.
  destruct x as [r|b| |l]; cbn [is_plain]; intros H G; (match type of H with ex _ => destruct H as [i ->] | _ => subst v end); (match type of G with ex _ => destruct G as [j ->] | _ => subst w end); cbn [eq_value eq_params]; try reflexivity; destruct (Nat.eqb i j); try reflexivity.
  - rewrite eq_scalars. now rewrite eqR_refl.
  - now rewrite eqb_reflx.
  - now rewrite (proj2 (eq_list_iff l l) eq_refl).
Qed.
Lemma eq_tuple_same l m xs : Forall2 is_plain l xs -> Forall2 is_plain m xs -> eq_tuple l m = Ok true.
Proof. intros F. revert m. induction F; intros m G; inversion G; subst; [reflexivity|]. cbn [eq_tuple]. erewrite eq_same by eassumption. cbn [bind]. auto. Qed.

Lemma snd_combine {A B} (l : list A) : forall m : list B, length m = length l -> map snd (combine l m) = m.
Proof. induction l; intros [|b m]; simpl; intros L; try discriminate; [reflexivity|]. f_equal. apply IHl. congruence. Qed.
Lemma fst_combine {A B} (l : list A) : forall m : list B, length m = length l -> map fst (combine l m) = l.
Proof. induction l; intros [|b m]; simpl; intros L; try discriminate; [reflexivity|]. f_equal. apply IHl. congruence. Qed.

Definition same_kind (v w : value) : Prop := (v = VNone /\ w = VNone) \/ (exists i p j q, v = VParam i p /\ w = VParam j q).
Lemma plain_kind v w x : is_plain v x -> is_plain w x -> same_kind v w.
Proof. destruct x; cbn; intros H G; (match type of H with ex _ => destruct H as [i ->] | _ => subst v end); (match type of G with ex _ => destruct G as [j ->] | _ => subst w end); [right|right|now left|right]; now repeat eexists. Qed.
Lemma combine_kind (names : list string) : forall vs ws n v, Forall2 same_kind vs ws -> In (n, v) (combine names vs) -> exists w, In (n, w) (combine names ws) /\ same_kind v w.
Proof.
  induction names as [|a names IH]; intros vs ws n v F H; [destruct H|]. destruct F as [|v' w vs ws K F]; [destruct H|]. cbn [combine] in *. destruct H as [[= -> ->]|H].
  - exists w. split; [now left|exact K].
  - destruct (IH _ _ _ _ F H) as (u & Hu & Ku). exists u. split; [now right|exact Ku].
Qed.
Lemma precision_kind c names vs ws : Forall2 same_kind vs ws -> one_precision c (combine names vs) -> one_precision c (combine names ws).
Proof.
  intros F H Hc. destruct (H Hc) as [[H1 (i & p & H2)]|[H1 (i & p & H2)]]; [left|right];
    (destruct (combine_kind _ _ _ _ _ F H1) as (w & Hw & [[_ ->]|(? & ? & ? & ? & ? & ?)]); [|discriminate]);
    (destruct (combine_kind _ _ _ _ _ F H2) as (u & Hu & [[? _]|(? & ? & j & q & _ & ->)]); [discriminate|]); (split; [exact Hw|now exists j, q]).
Qed.

Theorem round_trip show show_array number fresh c names values xs :
  In (c, names) documented -> length values = length names -> Forall2 is_plain values xs -> Forall (printable show number) xs ->
  one_precision c (combine names values) ->
  exists kw o, read_call number fresh (repr show show_array (mkDobj c (combine names values))) = Some (c, kw) /\
    instantiate c [] kw = Ok o /\ d_class o = c /\ map fst (d_values o) = names /\ Forall2 is_plain (map snd (d_values o)) xs /\
    eq_objects (mkDobj c (combine names values)) o = Ok true.
Proof.
  intros Hc L F P H1. destruct (read_repr show show_array number c names values xs fresh Hc L F P) as (ws & E & Lw & Fw).
  exists (combine names ws), (mkDobj c (combine names ws)). split; [exact E|]. split; [|split; [reflexivity|split; [|split]]].
  - change (@nil value) with (firstn 0 ws). apply construct_documented; [exact Hc|exact Lw|reflexivity|].
    eapply precision_kind; [|exact H1]. clear -F Fw. revert ws Fw. induction F; intros ws Fw; inversion Fw; subst; constructor; [eapply plain_kind; eassumption|auto].
  - now apply fst_combine.
  - cbn [d_values]. now rewrite snd_combine.
  - unfold eq_objects. cbn [d_class d_values]. rewrite String.eqb_refl, !snd_combine by assumption. eapply eq_tuple_same; eassumption.
Qed.

Theorem repr_injective show show_array number c names values xs c' names' values' ys :
  In (c, names) documented -> length values = length names -> Forall2 is_plain values xs -> Forall (printable show number) xs ->
  In (c', names') documented -> length values' = length names' -> Forall2 is_plain values' ys -> Forall (printable show number) ys ->
  repr show show_array (mkDobj c (combine names values)) = repr show show_array (mkDobj c' (combine names' values')) ->
  c = c' /\ xs = ys.
Proof.
  intros Hc L F P Hc' L' F' P' E. destruct (read_repr show show_array number c names values xs 0 Hc L F P) as (ws & R1 & Lw & Fw).
  destruct (read_repr show show_array number c' names' values' ys 0 Hc' L' F' P') as (us & R2 & Lu & Fu).
  rewrite E, R2 in R1. injection R1 as Ec Ek. split; [now symmetry|].
  apply (f_equal (map snd)) in Ek. rewrite !snd_combine in Ek by assumption. subst us. eapply plains_inj; eassumption.
Qed.

(** ** Distributions from any call *)
Lemma fill_names fields : forall args kw vs, fill fields args kw = Ok vs -> map fst vs = map fst fields.
Proof.
  induction fields as [|[n d] fields IH]; intros args kw vs; cbn [fill].
  - destruct args; [|discriminate]. now intros [= <-].
  - destruct args as [|a args].
    + destruct (keyword n kw) as [v|], d as [w|]; try discriminate; (destruct (fill fields [] kw) as [r|] eqn:E; cbn [bind]; [|discriminate]); intros [= <-]; cbn; f_equal; eauto.
    + destruct (keyword n kw); [discriminate|]. destruct (fill fields args kw) as [r|] eqn:E; cbn [bind]; [|discriminate]. intros [= <-]. cbn. f_equal. eauto.
Qed.
Lemma keyword_some name vs : In name (map fst vs) -> exists v, keyword name vs = Some v.
Proof.
  intros H. destruct (keyword name vs) as [v|] eqn:E; [now exists v|]. exfalso. apply in_map_iff in H as ([m v] & <- & H). exact (proj1 (keyword_none _ _) E v H).
Qed.
Lemma classes_documented : map (fun p => (fst p, map fst (snd p))) dataclasses = documented.
Proof. reflexivity. Qed.
Lemma constructed c args kw o : instantiate c args kw = Ok o ->
  exists names values, o = mkDobj c (combine names values) /\ In (c, names) documented /\ length values = length names /\ one_precision c (combine names values).
Proof.
  unfold instantiate. destruct (find _ dataclasses) as [[c' fields]|] eqn:Ef; [|discriminate].
  apply find_some in Ef as [Hin Ec]. cbn [fst] in Ec. apply String.eqb_eq in Ec. subst c'.
  destruct (init fields args kw) as [vs|] eqn:Ei; cbn [bind]; [|discriminate]. unfold init in Ei. destruct (forallb _ kw); [|discriminate]. apply fill_names in Ei.
  intros Hp. exists (map fst fields), (map snd vs).
  assert (Ecomb : combine (map fst fields) (map snd vs) = vs).
  { rewrite <- Ei. clear. induction vs as [|[n v] vs IH]; cbn; congruence. }
  assert (Hd : In (c, map fst fields) documented).
  { rewrite <- classes_documented. apply (in_map (fun p => (fst p, map fst (snd p))) _ _ Hin). }
  rewrite Ecomb. split; [|split; [exact Hd|split; [rewrite !map_length, <- (map_length fst fields), <- Ei, map_length; reflexivity|]]].
  - unfold post_init in Hp. destruct (String.eqb c "NormalInverseGamma"); [|congruence]. destruct (_ && _); [discriminate|]. destruct (_ && _); [discriminate|congruence].
  - intros ->. unfold post_init in Hp. rewrite String.eqb_refl in Hp.
    assert (N : map fst fields = ["mu"; "alpha"; "beta"; "delta_inverse"; "nu"]).
    { clear -Hd. simpl in Hd. repeat (destruct Hd as [Hd|Hd]; [inversion Hd; reflexivity|]). destruct Hd. }
    destruct (keyword_some "delta_inverse" vs) as [d Kd]; [rewrite Ei, N; simpl; tauto|].
    destruct (keyword_some "nu" vs) as [n Kn]; [rewrite Ei, N; simpl; tauto|].
    rewrite Kd, Kn in Hp. apply keyword_in in Kd, Kn. destruct d as [|i p], n as [|j q]; cbn in Hp; try discriminate; [left|right]; eauto.
Qed.

Theorem round_trip_any show show_array number fresh c args kw o xs :
  instantiate c args kw = Ok o -> Forall2 is_plain (map snd (d_values o)) xs -> Forall (printable show number) xs ->
  exists kw' o', read_call number fresh (repr show show_array o) = Some (c, kw') /\ instantiate c [] kw' = Ok o' /\
    map fst (d_values o') = map fst (d_values o) /\ Forall2 is_plain (map snd (d_values o')) xs /\ eq_objects o o' = Ok true.
Proof.
  intros H F P. destruct (constructed c args kw o H) as (names & values & -> & Hd & L & H1). cbn [d_values] in *. rewrite snd_combine in F by exact L.
  destruct (round_trip show show_array number fresh c names values xs Hd L F P H1) as (kw' & o' & R1 & R2 & _ & R3 & R4 & R5).
  exists kw', o'. rewrite fst_combine by exact L. now repeat split.
Qed.
