(** C60: enumerations. *)
From Coq Require Import NArith Bool List Arith Lia.
From Verif Require Import Enum.
Import ListNotations.
Local Open Scope list_scope.

(** * Specification

    A history of calls: [made env e] says that [e] can be obtained from the
    enumerations [env], the lists of symbols given to make-enumeration, one for each
    call. *)
Section Spec.
  Variable env : list (list val).
  Inductive made : eset -> Prop :=
  | MdMake id xs e : nth_error env id = Some xs -> make_enumeration id xs = EOk e -> made e
  | MdUniverse e r : made e -> enum_universe (ASet e) = EOk r -> made r
  | MdConstructor e xs r : made e -> enum_constructor (ASet e) xs = EOk r -> made r
  | MdUnion e1 e2 r : made e1 -> made e2 -> enum_union (ASet e1) (ASet e2) = EOk r -> made r
  | MdIntersect e1 e2 r : made e1 -> made e2 -> enum_intersect (ASet e1) (ASet e2) = EOk r -> made r
  | MdDifference e1 e2 r : made e1 -> made e2 -> enum_difference (ASet e1) (ASet e2) = EOk r -> made r
  | MdComplement e r : made e -> enum_complement (ASet e) = EOk r -> made r
  | MdProjection e1 e2 r : made e1 -> made e2 -> enum_projection (ASet e1) (ASet e2) = EOk r -> made r.

  (** What the user sees of a set: its type, the symbols of its universe in order, and
      the symbols in it. *)
  Definition kind (e : eset) : nat := tid (etyp e).
  Definition universe (e : eset) : list val := match nth_error env (kind e) with Some xs => xs | None => [] end.
  Definition has (e : eset) (x : val) : Prop := enum_member x (ASet e) = EOk true.

  (** * Lemmas *)
  Lemma set_member_spec s x : set_member s x = true <-> In x s.
  Proof. unfold set_member. destruct (in_dec val_dec x s); split; auto; discriminate. Qed.
  Lemma subset_spec s t : subset s t = true <-> incl s t.
  Proof. unfold subset. rewrite forallb_forall. split; intros H x I; apply set_member_spec; auto. Qed.
  Lemma cons_loop_spec xs ys : forall acc, cons_loop xs ys acc = rev acc ++ filter (set_member xs) ys.
  Proof.
    induction ys as [|y ys IH]; intros acc; simpl; [rewrite app_nil_r; auto|]. destruct (set_member xs y); rewrite IH; auto. simpl. rewrite <- app_assoc. auto.
  Qed.
  (** the invariant *)
  Record inv (e : eset) : Prop := mkInv {
    i_univ : nth_error env (tid (etyp e)) = Some (tuniverse (etyp e));
    i_tset : tset (etyp e) = tuniverse (etyp e);
    i_syms : forallb symbolv (tuniverse (etyp e)) = true;
    i_set : eset_ e = evals e;
    i_vals : evals e = filter (set_member (evals e)) (tuniverse (etyp e)) }.
  Lemma filter_self u (p : val -> bool) : filter p u = filter (set_member (filter p u)) u.
  Proof.
    apply filter_ext_in. intros x I. apply eq_true_iff_eq. rewrite set_member_spec, filter_In. tauto.
  Qed.
  Lemma filter_all (u : list val) : filter (set_member u) u = u.
  Proof.
    assert (G : forall l : list val, (forall x, In x l -> In x u) -> filter (set_member u) l = l).
    { induction l as [|a l IH]; intros H; auto. simpl. replace (set_member u a) with true by (symmetry; apply set_member_spec, H; left; auto).
      f_equal. apply IH. intros x I. apply H. right; auto. }
    apply G. auto.
  Qed.
  Lemma inv_filter e p : inv e -> inv (make_eset (etyp e) (filter p (tuniverse (etyp e)))).
  Proof. intros [A B C D E]. constructor; cbn; unfold make_set; auto. apply filter_self. Qed.
  Lemma merger_inv k e1 e2 r : inv e1 -> merger k (ASet e1) (ASet e2) = EOk r -> inv r.
  Proof. unfold merger. cbn. intros I. destruct (_ =? _); [|discriminate]. intros H. injection H as <-. apply inv_filter; auto. Qed.
  Lemma constructor_inv e xs r : inv e -> enum_constructor (ASet e) xs = EOk r -> inv r.
  Proof.
    unfold enum_constructor. cbn. intros I. destruct (forallb symbolv xs); [|discriminate]. intros H. injection H as <-.
    rewrite cons_loop_spec. cbn [rev app]. apply inv_filter; auto.
  Qed.
  Lemma made_inv e : made e -> inv e.
  Proof.
    induction 1 as [id xs e N H|e r M I H|e xs r M I H|e1 e2 r M1 I1 M2 I2 H|e1 e2 r M1 I1 M2 I2 H|e1 e2 r M1 I1 M2 I2 H|e r M I H|e1 e2 r M1 I1 M2 I2 H].
    - unfold make_enumeration in H. destruct (forallb symbolv xs) eqn:S; [|discriminate]. injection H as <-. constructor; cbn; unfold make_set; auto. symmetry. apply filter_all.
    - cbn in H. injection H as <-. destruct I as [A B C D E]. constructor; cbn; unfold make_set; auto. symmetry. apply filter_all.
    - eapply constructor_inv; eauto.
    - eapply merger_inv; [exact I1|exact H].
    - eapply merger_inv; [exact I1|exact H].
    - eapply merger_inv; [exact I1|exact H].
    - cbn in H. injection H as <-. apply inv_filter; auto.
    - unfold enum_projection in H. cbn [want ebind] in H. eapply constructor_inv; [exact I2|exact H].
  Qed.
  Lemma inv_universe e : inv e -> universe e = tuniverse (etyp e).
  Proof. intros [A _ _ _ _]. unfold universe, kind. rewrite A. auto. Qed.
  Lemma has_spec e x : inv e -> (has e x <-> In x (evals e)).
  Proof. intros I. unfold has, enum_member. cbn. rewrite (i_set e I). rewrite <- set_member_spec. split; [intros H; injection H; auto|intros ->; auto]. Qed.
  Lemma has_universe e x : inv e -> has e x -> In x (universe e).
  Proof. intros I H. apply has_spec in H; auto. rewrite inv_universe by auto. rewrite (i_vals e I) in H. apply filter_In in H. tauto. Qed.
  Lemma has_filter e p x : inv e -> (has (make_eset (etyp e) (filter p (tuniverse (etyp e)))) x <-> In x (universe e) /\ p x = true).
  Proof. intros I. rewrite has_spec by (apply inv_filter; auto). cbn. rewrite filter_In, inv_universe by auto. tauto. Qed.
  (** sets of one type with the same symbols are the same *)
  Lemma inv_ext e1 e2 : inv e1 -> inv e2 -> kind e1 = kind e2 -> (forall x, has e1 x <-> has e2 x) -> e1 = e2.
  Proof.
    intros I J K H. assert (T : etyp e1 = etyp e2).
    { destruct I as [A B _ _ _], J as [A' B' _ _ _]. unfold kind in K. destruct (etyp e1) as [i u s], (etyp e2) as [i' u' s']. cbn in *. subst. congruence. }
    assert (V : evals e1 = evals e2).
    { rewrite (i_vals e1 I), (i_vals e2 J), T. apply filter_ext. intros x. apply eq_true_iff_eq. rewrite !set_member_spec.
      rewrite <- (has_spec e1 x I), <- (has_spec e2 x J). apply H. }
    destruct I as [_ _ _ D _], J as [_ _ _ D' _]. destruct e1, e2. cbn in *. congruence.
  Qed.

  (** * Theorems *)
  (** The symbols of a set, in the order of its universe. *)
  Theorem C60_order e : made e -> enum_to_list (ASet e) = EOk (filter (fun x => match enum_member x (ASet e) with EOk b => b | EErr => false end) (universe e)).
  Proof.
    intros M. apply made_inv in M. cbn. rewrite inv_universe by auto. f_equal. rewrite (i_vals e M) at 1. apply filter_ext. intros x. rewrite (i_set e M). auto.
  Qed.
  Theorem C60_list e : made e -> exists l, enum_to_list (ASet e) = EOk l /\ forall x, In x l <-> has e x.
  Proof. intros M. apply made_inv in M. exists (evals e). split; auto. intros x. symmetry. apply has_spec. auto. Qed.
  (** A new enumeration has all its symbols; lists with anything else are refused. *)
  Theorem C60_make id xs : nth_error env id = Some xs ->
    match make_enumeration id xs with
    | EOk e => made e /\ kind e = id /\ universe e = xs /\ (forall x, has e x <-> In x xs) /\ forall x, In x xs -> symbolv x = true
    | EErr => exists x, In x xs /\ symbolv x = false
    end.
  Proof.
    intros N. unfold make_enumeration. destruct (forallb symbolv xs) eqn:S.
    - assert (M : made (make_eset (make_type id xs) xs)). { eapply MdMake; [exact N|]. unfold make_enumeration. rewrite S. auto. }
      split; [exact M|]. apply made_inv in M. split; [reflexivity|]. split; [apply inv_universe; auto|]. split; [intros x; apply has_spec; auto|].
      apply forallb_forall. auto.
    - assert (G : forall l, forallb symbolv l = false -> exists x, In x l /\ symbolv x = false).
      { induction l as [|a l IH]; simpl; [discriminate|]. destruct (symbolv a) eqn:A; [|eauto]. intros H. destruct (IH H) as [x [X Y]]. eauto. }
      auto.
  Qed.
  (** The operations on two sets of one type, and on sets of two types. *)
  Theorem C60_operations e1 e2 : made e1 -> made e2 -> kind e1 = kind e2 ->
    exists u i d, enum_union (ASet e1) (ASet e2) = EOk u /\ enum_intersect (ASet e1) (ASet e2) = EOk i /\ enum_difference (ASet e1) (ASet e2) = EOk d /\
      kind u = kind e1 /\ kind i = kind e1 /\ kind d = kind e1 /\
      forall x, (has u x <-> has e1 x \/ has e2 x) /\ (has i x <-> has e1 x /\ has e2 x) /\ (has d x <-> has e1 x /\ ~ has e2 x).
  Proof.
    intros M1 M2 K. apply made_inv in M1, M2. unfold enum_union, enum_intersect, enum_difference, merger. cbn [want ebind].
    unfold kind in *. rewrite K, Nat.eqb_refl. do 3 eexists. split; [reflexivity|]. split; [reflexivity|]. split; [reflexivity|].
    split; [auto|]. split; [auto|]. split; [auto|]. intros x. rewrite !has_filter by auto.
    assert (H1 := has_universe e1 x M1). assert (H2 := has_universe e2 x M2).
    assert (U : universe e2 = universe e1) by (unfold universe, kind; rewrite K; auto). rewrite U in H2.
    rewrite (i_set e1 M1), (i_set e2 M2), orb_true_iff, !andb_true_iff, negb_true_iff, <- not_true_iff_false, !set_member_spec, <- !has_spec by auto.
    tauto.
  Qed.
  Theorem C60_types_apart e1 e2 : kind e1 <> kind e2 ->
    enum_union (ASet e1) (ASet e2) = EErr /\ enum_intersect (ASet e1) (ASet e2) = EErr /\ enum_difference (ASet e1) (ASet e2) = EErr.
  Proof.
    intros K. unfold enum_union, enum_intersect, enum_difference, merger, kind in *. cbn. apply Nat.eqb_neq in K. rewrite K. auto.
  Qed.
  Theorem C60_complement e : made e -> exists c, enum_complement (ASet e) = EOk c /\ kind c = kind e /\
    (forall x, has c x <-> In x (universe e) /\ ~ has e x) /\ enum_complement (ASet c) = EOk e.
  Proof.
    intros M. apply made_inv in M. eexists. split; [reflexivity|]. split; [auto|].
    assert (H : forall x, has (make_eset (etyp e) (filter (fun y => negb (set_member (eset_ e) y)) (tuniverse (etyp e)))) x <-> In x (universe e) /\ ~ has e x).
    { intros x. rewrite has_filter by auto. rewrite negb_true_iff, <- not_true_iff_false, (i_set e M), set_member_spec, <- has_spec by auto. tauto. }
    split; [exact H|]. cbn [enum_complement want ebind]. f_equal. symmetry. apply inv_ext.
    - auto.
    - apply (inv_filter (make_eset (etyp e) (filter (fun y => negb (set_member (eset_ e) y)) (tuniverse (etyp e))))). apply inv_filter. auto.
    - auto.
    - intros x. rewrite has_filter by (apply inv_filter; auto). change (universe (make_eset (etyp e) _)) with (universe e).
      cbn [eset_ make_eset]. unfold make_set. rewrite negb_true_iff, <- not_true_iff_false, set_member_spec, filter_In, negb_true_iff, <- not_true_iff_false, (i_set e M), set_member_spec, <- has_spec by auto.
      assert (HU := has_universe e x M). rewrite <- inv_universe by auto.
      destruct (in_dec val_dec x (evals e)) as [I|I]; rewrite <- has_spec in I by auto; tauto.
  Qed.
  (** The constructor keeps the symbols of the universe. *)
  Theorem C60_constructor e xs : made e ->
    match enum_constructor (ASet e) xs with
    | EOk r => kind r = kind e /\ (forall x, has r x <-> In x (universe e) /\ In x xs) /\ forall x, In x xs -> symbolv x = true
    | EErr => exists x, In x xs /\ symbolv x = false
    end.
  Proof.
    intros M. apply made_inv in M. unfold enum_constructor. cbn [want ebind]. destruct (forallb symbolv xs) eqn:S.
    - rewrite cons_loop_spec. cbn [rev app]. split; [auto|]. split; [|apply forallb_forall; auto]. intros x. rewrite has_filter, set_member_spec by auto. tauto.
    - revert S. induction xs as [|a l IH]; simpl; [discriminate|]. destruct (symbolv a) eqn:A; [|eauto]. intros H. destruct (IH H) as [x [X Y]]. eauto.
  Qed.
  (** Making a set again from its list gives it back. *)
  Theorem C60_roundtrip e1 e2 l : made e1 -> made e2 -> kind e1 = kind e2 -> enum_to_list (ASet e1) = EOk l -> enum_constructor (ASet e2) l = EOk e1.
  Proof.
    intros M1 M2 K L. assert (I1 := made_inv _ M1). assert (I2 := made_inv _ M2). cbn in L. injection L as <-.
    assert (C := C60_constructor e2 (evals e1) M2). destruct (enum_constructor (ASet e2) (evals e1)) as [r|] eqn:E.
    - destruct C as [C1 [C2 _]]. f_equal. apply inv_ext; auto; [eapply constructor_inv; eauto|congruence|]. intros x. rewrite C2, has_spec by auto.
      split; [tauto|]. intros H. split; auto. apply has_spec in H; auto. apply has_universe in H; auto. unfold universe in *. rewrite <- K. auto.
    - exfalso. destruct C as [x [X Y]]. apply has_spec in X; auto. apply has_universe in X; auto. rewrite inv_universe in X by auto.
      assert (S := i_syms e1 I1). rewrite forallb_forall in S. rewrite (S x X) in Y. discriminate.
  Qed.
  (** Subsets and equality. *)
  Theorem C60_subset e1 e2 : made e1 -> made e2 -> exists b, enum_subset (ASet e1) (ASet e2) = EOk b /\
    (b = true <-> incl (universe e1) (universe e2) /\ forall x, has e1 x -> has e2 x).
  Proof.
    intros M1 M2. apply made_inv in M1, M2. eexists. split; [reflexivity|]. unfold subset_. rewrite andb_true_iff, !subset_spec.
    rewrite (i_tset e1 M1), (i_tset e2 M2), (i_set e1 M1), (i_set e2 M2), <- !inv_universe by auto.
    split; intros [A B]; (split; [exact A|]); intros x H; [rewrite has_spec in * by auto; auto|apply (has_spec e2 x M2), B, has_spec; auto].
  Qed.
  Theorem C60_equal e1 e2 : made e1 -> made e2 -> exists b, enum_equal (ASet e1) (ASet e2) = EOk b /\
    (b = true <-> (forall x, In x (universe e1) <-> In x (universe e2)) /\ forall x, has e1 x <-> has e2 x).
  Proof.
    intros M1 M2. destruct (C60_subset e1 e2 M1 M2) as [b1 [E1 S1]]. destruct (C60_subset e2 e1 M2 M1) as [b2 [E2 S2]]. cbn in E1, E2. injection E1 as <-. injection E2 as <-.
    eexists. split; [reflexivity|]. rewrite andb_true_iff, S1, S2. unfold incl. split; [intros [[A B] [C D]]; split; intros x; split; auto|intros [A B]; split; split; intros x X; (apply A || apply B); auto].
  Qed.
  (** For sets of one type: equal exactly when their lists are. *)
  Theorem C60_equal_lists e1 e2 : made e1 -> made e2 -> kind e1 = kind e2 -> (enum_equal (ASet e1) (ASet e2) = EOk true <-> enum_to_list (ASet e1) = enum_to_list (ASet e2)).
  Proof.
    intros M1 M2 K. destruct (C60_equal e1 e2 M1 M2) as [b [E S]]. rewrite E. assert (I1 := made_inv _ M1). assert (I2 := made_inv _ M2). split.
    - intros H. injection H as ->. destruct S as [S _]. destruct (S eq_refl) as [_ H]. rewrite (inv_ext e1 e2 I1 I2 K H). auto.
    - intros H. f_equal. apply S. cbn in H. injection H as H. split; [intros x; unfold universe; rewrite K; tauto|]. intros x. rewrite !has_spec, H by auto. tauto.
  Qed.
  (** The projection: the symbols that are in the other universe, as a set of the
      other type. *)
  Theorem C60_projection e1 e2 : made e1 -> made e2 -> exists p, enum_projection (ASet e1) (ASet e2) = EOk p /\ kind p = kind e2 /\
    forall x, has p x <-> has e1 x /\ In x (universe e2).
  Proof.
    intros M1 M2. assert (I1 := made_inv _ M1). assert (I2 := made_inv _ M2). unfold enum_projection. cbn [want ebind].
    set (l := filter (set_member (tset (etyp e2))) (evals e1)). assert (C := C60_constructor e2 l M2).
    assert (L : forall x, In x l <-> has e1 x /\ In x (universe e2)).
    { intros x. unfold l. rewrite filter_In, set_member_spec, (i_tset e2 I2), <- inv_universe, has_spec by auto. tauto. }
    destruct (enum_constructor (ASet e2) l) as [r|].
    - destruct C as [C1 [C2 _]]. exists r. split; [auto|]. split; [auto|]. intros x. rewrite C2, L. tauto.
    - exfalso. destruct C as [x [X Y]]. apply L in X as [X _]. apply has_universe in X; auto. rewrite inv_universe in X by auto.
      assert (S := i_syms e1 I1). rewrite forallb_forall in S. rewrite (S x X) in Y. discriminate.
  Qed.
  (** The index of a symbol: its first position in the universe. *)
  Lemma index_spec k l : forall i, match index_of k l i with
    | Some j => i <= j /\ nth_error l (j - i) = Some k /\ forall m, m < j - i -> nth_error l m <> Some k
    | None => ~ In k l end.
  Proof.
    induction l as [|a l IH]; intros i; simpl; auto. destruct (val_dec k a) as [->|N].
    - rewrite Nat.sub_diag. split; auto. split; auto. intros m H. lia.
    - specialize (IH (S i)). destruct (index_of k l (S i)) as [j|].
      + destruct IH as [A [B C]]. replace (j - i) with (S (j - S i)) by lia. split; [lia|]. split; [exact B|]. intros [|m] H; simpl; [congruence|]. apply C. lia.
      + intros [E|I]; [congruence|auto].
  Qed.
  Theorem C60_indexer e x : made e -> symbolv x = true -> exists r, enum_indexer (ASet e) x = EOk r /\
    match r with
    | Some i => nth_error (universe e) i = Some x /\ forall j, j < i -> nth_error (universe e) j <> Some x
    | None => ~ In x (universe e)
    end.
  Proof.
    intros M S. apply made_inv in M. unfold enum_indexer. cbn [want ebind]. rewrite S. eexists. split; [reflexivity|]. rewrite inv_universe by auto.
    assert (H := index_spec x (tuniverse (etyp e)) 0). destruct (index_of x (tuniverse (etyp e)) 0) as [i|]; auto.
    rewrite Nat.sub_0_r in H. tauto.
  Qed.
  (** De Morgan's law holds as an equality of sets. *)
  Theorem C60_de_morgan e1 e2 u c1 c2 : made e1 -> made e2 -> kind e1 = kind e2 -> enum_union (ASet e1) (ASet e2) = EOk u ->
    enum_complement (ASet e1) = EOk c1 -> enum_complement (ASet e2) = EOk c2 -> enum_complement (ASet u) = enum_intersect (ASet c1) (ASet c2).
  Proof.
    intros M1 M2 K U E1 E2. assert (MU : made u) by (apply (MdUnion e1 e2 u M1 M2 U)). assert (N1 : made c1) by (eapply MdComplement; [exact M1|auto]).
    assert (N2 : made c2) by (eapply MdComplement; [exact M2|auto]).
    destruct (C60_operations e1 e2 M1 M2 K) as [u' [i0 [d0 [U' [_ [_ [KU [_ [_ HU]]]]]]]]]. rewrite U in U'. injection U' as <-.
    destruct (C60_complement u MU) as [cu [EU [KCU [HCU _]]]]. destruct (C60_complement e1 M1) as [c1' [E1' [K1 [H1 _]]]]. destruct (C60_complement e2 M2) as [c2' [E2' [K2 [H2 _]]]].
    rewrite E1 in E1'. injection E1' as <-. rewrite E2 in E2'. injection E2' as <-.
    destruct (C60_operations c1 c2 N1 N2) as [u0 [i [d1 [_ [EI [_ [_ [KI [_ HI]]]]]]]]]; [congruence|]. rewrite EU, EI. f_equal. apply inv_ext.
    - apply made_inv. eapply MdComplement; [exact MU|auto].
    - apply made_inv. eapply MdIntersect; [exact N1|exact N2|auto].
    - congruence.
    - intros x. destruct (HU x) as [HUx _]. destruct (HI x) as [_ [HIx _]]. rewrite HCU, HIx, H1, H2, HUx.
      assert (Q1 : universe u = universe e1) by (unfold universe; rewrite KU; auto). assert (Q2 : universe e2 = universe e1) by (unfold universe; rewrite K; auto).
      rewrite Q1, Q2. tauto.
  Qed.
  (** Anything that is not an enumeration set is refused. *)
  Theorem C60_arguments_checked a x xs : enum_to_list AOther = EErr /\ enum_universe AOther = EErr /\ enum_constructor AOther xs = EErr /\ enum_indexer AOther x = EErr /\
    enum_member x AOther = EErr /\ enum_complement AOther = EErr /\ enum_subset AOther a = EErr /\ enum_subset a AOther = EErr /\ enum_equal AOther a = EErr /\
    enum_equal a AOther = EErr /\ enum_union AOther a = EErr /\ enum_union a AOther = EErr /\ enum_intersect AOther a = EErr /\ enum_intersect a AOther = EErr /\
    enum_difference AOther a = EErr /\ enum_difference a AOther = EErr /\ enum_projection AOther a = EErr /\ enum_projection a AOther = EErr.
  Proof. destruct a; repeat split; reflexivity. Qed.
End Spec.

(** The list of a set has every symbol once, unless the enumeration was made from a
    list with repetitions: they are kept. *)
Theorem C60_list_partial env e l : made env e -> NoDup (universe env e) -> enum_to_list (ASet e) = EOk l -> NoDup l.
Proof. intros M N L. rewrite (C60_order env e M) in L. injection L as <-. apply NoDup_filter. auto. Qed.
Theorem C60_repeated_symbol_refuted : exists e l, make_enumeration 0 [VSym 0; VSym 1; VSym 0; VSym 2] = EOk e /\
  enum_to_list (ASet e) = EOk l /\ ~ NoDup l /\ enum_indexer (ASet e) (VSym 2) = EOk (Some 3).
Proof.
  eexists. eexists. split; [reflexivity|]. split; [reflexivity|]. split; [|reflexivity]. intros H. inversion H as [|? ? N]; subst. apply N. right. left. auto.
Qed.

(** ** Concrete cases *)
Example C60_case : exists e a b, let env := [[VSym 3; VSym 1; VSym 2]; [VSym 2; VSym 5]] in
  make_enumeration 0 [VSym 3; VSym 1; VSym 2] = EOk e /\ enum_constructor (ASet e) [VSym 2; VSym 3; VSym 9] = EOk a /\ enum_constructor (ASet e) [VSym 1] = EOk b /\
  made env e /\ made env a /\ made env b /\ kind a = kind b /\
  enum_to_list (ASet a) = EOk [VSym 3; VSym 2] /\
  (exists u, enum_union (ASet b) (ASet a) = EOk u /\ enum_to_list (ASet u) = EOk [VSym 3; VSym 1; VSym 2]) /\
  (exists f p, make_enumeration 1 [VSym 2; VSym 5] = EOk f /\ enum_projection (ASet a) (ASet f) = EOk p /\ enum_to_list (ASet p) = EOk [VSym 2] /\ enum_union (ASet a) (ASet f) = EErr).
Proof.
  eexists. eexists. eexists. cbv zeta. split; [reflexivity|]. split; [reflexivity|]. split; [reflexivity|].
  assert (M : made [[VSym 3; VSym 1; VSym 2]; [VSym 2; VSym 5]] (make_eset (make_type 0 [VSym 3; VSym 1; VSym 2]) [VSym 3; VSym 1; VSym 2])).
  { apply (MdMake _ 0 [VSym 3; VSym 1; VSym 2]); reflexivity. }
  split; [exact M|]. split; [apply (MdConstructor _ _ [VSym 2; VSym 3; VSym 9] _ M); reflexivity|]. split; [apply (MdConstructor _ _ [VSym 1] _ M); reflexivity|].
  split; [reflexivity|]. split; [reflexivity|]. split; [eexists; split; reflexivity|]. eexists. eexists. repeat split; reflexivity.
Qed.

Print Assumptions C60_order.
Print Assumptions C60_list.
Print Assumptions C60_make.
Print Assumptions C60_operations.
Print Assumptions C60_types_apart.
Print Assumptions C60_complement.
Print Assumptions C60_constructor.
Print Assumptions C60_roundtrip.
Print Assumptions C60_subset.
Print Assumptions C60_equal.
Print Assumptions C60_equal_lists.
Print Assumptions C60_projection.
Print Assumptions C60_indexer.
Print Assumptions C60_de_morgan.
Print Assumptions C60_arguments_checked.
Print Assumptions C60_list_partial.
Print Assumptions C60_repeated_symbol_refuted.
