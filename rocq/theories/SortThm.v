(** C21: sort.

    Reading guide.  [list_at h v xs]: in heap [h], [v] is the proper list of [xs];
    [extends h h']: [h'] is [h] with cells added, so nothing that existed before
    changed.  [strict_weak_order], [in_order] and [stable] are in SortProofs.v. *)
From Coq Require Import ZArith NArith Bool Ascii String List Lia Permutation.
From Verif Require Import Base Outcome Arith Heap HeapM Equal EqualProofs Lists ListsProofs Vectors VectorsThm Pairs Sort SortProofs.
Import ListNotations.
Local Open Scope list_scope.

(** On the elements of the list, [less?] returns a boolean according to [lt], in any
    heap in which the objects that existed before the sort are unchanged.  It may
    allocate, and read everything; it must not mutate. *)
Definition decides (less : proc) (lt : val -> val -> bool) (h0 : heap) (xs : list val) : Prop :=
  forall x y h, In x xs -> In y xs -> extends h0 h ->
    exists r h', less [x; y] h = HOk r h' /\ extends h h' /\ (r <> VFalse <-> lt x y = true).
(** As above, but with arbitrary, possibly inconsistent answers, and errors. *)
Definition answers_or_raises (less : proc) (h0 : heap) (xs : list val) : Prop :=
  forall x y h, In x xs -> In y xs -> extends h0 h ->
    exists h', extends h h' /\ ((exists r, less [x; y] h = HOk r h') \/ exists e, less [x; y] h = HErr e h').

Lemma sort_list_gen L less h xs v fuel :
  (forall x y h1, In x xs -> In y xs -> extends h h1 ->
    match less [x; y] h1 with HOk r h' => extends h1 h' /\ L x y (truthy r) | HErr _ h' => extends h1 h' | _ => False end) ->
  list_at h v xs -> length xs < fuel ->
  res_ok less h xs h [] (fun r h' => exists zs, Sorts L xs zs /\ list_at h' r zs) (p_sort less fuel v h).
Proof.
  intros HL Hl Hf. unfold p_sort.
  replace (vectorp h v) with false.
  2:{ symmetry. unfold vectorp, vec_at, cell_of. destruct Hl; auto. now rewrite H. }
  assert (G : exists r h' ls, p_append fuel [v; VNull] h = HOk r h' /\ extends h h' /\ at_cells h' ls xs VNull r /\ NoDup ls /\ fresh h ls).
  { unfold p_append, m_listp. erewrite bind_ok by (rewrite (listp_ok _ _ _ _ Hl) by lia; reflexivity). cbv iota.
    erewrite bind_ok by (rewrite (listp_ok h VNull []) by (simpl; try lia; constructor); reflexivity). cbv iota.
    destruct (append2_ok xs h v VNull fuel Hl ltac:(lia)) as (r & h' & E & X & _ & [(-> & -> & ->)|(-> & ->)]).
    - exists VNull, h, []. split; auto. split; auto. split; [reflexivity|]. split; [constructor|]. intros ? [].
    - destruct xs as [|x xs].
      { exists VNull, h, []. split; [|split; [apply extends_refl|split; [reflexivity|split; [constructor|intros ? []]]]].
        apply list_at_nil in Hl. subst v. reflexivity. }
      exists (VPtr (length h)), (h ++ chain (length h) (x :: xs) VNull), (seq (length h) (length (x :: xs))).
      split; auto. split; auto. split; [|split; [apply seq_NoDup|intros l Hl'; apply in_seq in Hl'; lia]].
      pose proof (chain_cells h (x :: xs) [] VNull ltac:(discriminate)) as C. cbn [length app] in C.
      rewrite Nat.add_0_r in C. exact C. }
  destruct G as (r & h' & ls & E & X & C & ND & FR). rewrite (bind_ok _ _ _ _ _ E).
  pose proof (sort_bang_ok L less h xs HL fuel h' ls xs r C ND FR X (incl_refl _) Hf) as R.
  destruct (sort_bang less fuel r h') as [r' h2|e h2| |]; cbn [res_ok] in *; auto.
  destruct R as (F & ls' & zs & P & So & C'). split.
  - apply extends_iff. eapply ext_frame; eauto.
  - exists zs. split; auto. rewrite <- (app_nil_r zs). eapply at_cells_list; eauto. constructor.
Qed.

Lemma sort_vec_gen L less h xs v fuel :
  (forall x y h1, In x xs -> In y xs -> extends h h1 ->
    match less [x; y] h1 with HOk r h' => extends h1 h' /\ L x y (truthy r) | HErr _ h' => extends h1 h' | _ => False end) ->
  vec_at h v = Some xs -> length xs < fuel ->
  res_ok less h xs h [] (fun r h' => exists zs, Sorts L xs zs /\ vec_at h' r = Some zs) (p_sort less fuel v h).
Proof.
  intros HL Hv Hf. unfold p_sort. unfold vectorp. rewrite Hv.
  destruct (vec_to_list_cells h xs (length xs) h VNull [] [] (le_n _)) as (r & h' & ls & E & X & C & ND & FR);
    [reflexivity|intros ? []|constructor|apply extends_refl|].
  rewrite firstn_all, app_nil_r in C.
  erewrite bind_ok by (unfold p_vector_to_list, if_vec, vectorp, c_vector_to_list; rewrite Hv; exact E).
  pose proof (sort_bang_ok L less h xs HL fuel h' ls xs r C ND FR X (incl_refl _) Hf) as R.
  unfold bind at 1. destruct (sort_bang less fuel r h') as [r' h2|e h2| |]; cbn [res_ok] in *; auto.
  destruct R as (F & ls' & zs & P & So & C').
  assert (LA : list_at h2 r' zs).
  { rewrite <- (app_nil_r zs). eapply at_cells_list; eauto. constructor. }
  assert (X2 : extends h h2) by (eapply ext_frame; eauto).
  pose proof (Permutation_length (Sorts_perm _ _ _ So)) as PL.
  destruct (C17_list_to_vector zs h2 r' fuel LA ltac:(lia)) as (w & h3 & E3 & X3 & V & _).
  rewrite E3. cbn [res_ok]. split; [apply extends_iff; eapply extends_trans; eauto|]. eauto.
Qed.

Lemma decides_gen less lt h xs : decides less lt h xs ->
  forall x y h1, In x xs -> In y xs -> extends h h1 ->
    match less [x; y] h1 with HOk r h' => extends h1 h' /\ answers lt x y (truthy r) | HErr _ h' => extends h1 h' | _ => False end.
Proof.
  intros D x y h1 Hx Hy X. destruct (D x y h1 Hx Hy X) as (r & h' & E & X' & B). rewrite E. split; auto.
  unfold answers. destruct r; cbn [truthy]; destruct (lt x y); auto;
    try (exfalso; apply B; auto; fail); try (symmetry; apply B; discriminate); exfalso;
    assert (false = true) by (apply B; discriminate); discriminate.
Qed.

(** The argument list (and everything else) is left alone, and the result is an
    ordered, stable permutation. *)
Theorem C21_sort_list : forall less lt h v xs fuel,
  list_at h v xs -> strict_weak_order lt -> decides less lt h xs -> length xs < fuel ->
  exists r h' ys, p_sort less fuel v h = HOk r h' /\ extends h h' /\ list_at h' r ys /\
    Permutation xs ys /\ in_order lt ys /\ stable lt xs ys.
Proof.
  intros less lt h v xs fuel Hl W D Hf.
  pose proof (sort_list_gen _ less h xs v fuel (decides_gen _ _ _ _ D) Hl Hf) as R.
  destruct (p_sort less fuel v h) as [r h'|e h'| |] eqn:E; cbn [res_ok] in R; try contradiction.
  - destruct R as (F & zs & So & LA). destruct (Sorts_ord lt W _ _ So) as [O ST].
    exists r, h', zs. split; auto. split; [now apply extends_iff|]. split; auto.
    split; [eapply Sorts_perm; eauto|]. split; auto. now apply ord_in_order.
  - destruct R as (_ & x & y & h1 & Hx & Hy & X1 & R). destruct (D x y h1 Hx Hy X1) as (r & h2 & E2 & _). congruence.
Qed.
Theorem C21_sort_vector : forall less lt h v xs fuel,
  vec_at h v = Some xs -> strict_weak_order lt -> decides less lt h xs -> length xs < fuel ->
  exists r h' ys, p_sort less fuel v h = HOk r h' /\ extends h h' /\ vec_at h' r = Some ys /\
    Permutation xs ys /\ in_order lt ys /\ stable lt xs ys.
Proof.
  intros less lt h v xs fuel Hl W D Hf.
  pose proof (sort_vec_gen _ less h xs v fuel (decides_gen _ _ _ _ D) Hl Hf) as R.
  destruct (p_sort less fuel v h) as [r h'|e h'| |] eqn:E; cbn [res_ok] in R; try contradiction.
  - destruct R as (F & zs & So & LA). destruct (Sorts_ord lt W _ _ So) as [O ST].
    exists r, h', zs. split; auto. split; [now apply extends_iff|]. split; auto.
    split; [eapply Sorts_perm; eauto|]. split; auto. now apply ord_in_order.
  - destruct R as (_ & x & y & h1 & Hx & Hy & X1 & R). destruct (D x y h1 Hx Hy X1) as (r & h2 & E2 & _). congruence.
Qed.

(** Whatever [less?] answers, sorting terminates, changes nothing that existed
    before, and returns a permutation, or raises what [less?] raised. *)
Theorem C21_any_less : forall less h v xs fuel,
  list_at h v xs -> answers_or_raises less h xs -> length xs < fuel ->
  match p_sort less fuel v h with
  | HOk r h' => extends h h' /\ exists ys, list_at h' r ys /\ Permutation xs ys
  | HErr e h' => extends h h' /\ exists x y h1, In x xs /\ In y xs /\ less [x; y] h1 = HErr e h'
  | HUndef | HFuel => False
  end.
Proof.
  intros less h v xs fuel Hl D Hf.
  pose proof (sort_list_gen (fun _ _ _ => True) less h xs v fuel) as R.
  assert (G : res_ok less h xs h [] (fun r h' => exists zs, Sorts (fun _ _ _ => True) xs zs /\ list_at h' r zs) (p_sort less fuel v h)).
  { apply R; auto. intros x y h1 Hx Hy X. destruct (D x y h1 Hx Hy X) as (h' & X' & [[r E]|[e E]]); rewrite E; auto. }
  destruct (p_sort less fuel v h) as [r h'|e h'| |]; cbn [res_ok] in G; auto.
  - destruct G as (F & zs & So & LA). split; [now apply extends_iff|]. exists zs. split; auto. eapply Sorts_perm; eauto.
  - destruct G as (X & x & y & h1 & G). split; auto. exists x, y, h1. tauto.
Qed.

(** Anything else than a list or vector is an error. *)
Theorem C21_not_a_sequence : forall less h v fuel, vec_at h v = None ->
  match p_sort less fuel v h with
  | HErr e h' => (forall xs, ~ list_at h v xs) -> e = EArg "append" v /\ h' = h
  | HUndef | HOk _ _ | HFuel => (exists xs, list_at h v xs) \/ listp fuel h v = None
  end.
Proof.
  intros less h v fuel Hv. unfold p_sort. unfold vectorp. rewrite Hv. unfold p_append, m_listp. unfold bind at 2.
  unfold bind at 1. destruct (listp fuel h v) as [[|]|] eqn:E.
  - apply listp_true in E as (xs & E & _).
    match goal with |- match ?m with _ => _ end => destruct m end; eauto. intros N. exfalso. eapply N; eauto.
  - cbn [fail]. auto.
  - auto.
Qed.

(** A concrete case: fixnums compared by their tens; equal tens keep their order. *)
Definition tens (a b : val) : bool :=
  match a, b with VFix x, VFix y => (x / 10 <? y / 10)%Z | VFix _, _ => true | _, _ => false end.
Definition less_tens : proc := fun args h =>
  match args with [a; b] => HOk (if tens a b then VTrue else VFalse) h | _ => HUndef end.
Lemma tens_swo : strict_weak_order tens.
Proof.
  split.
  - destruct x; auto. apply Z.ltb_irrefl.
  - intros x y z H1 H2. destruct x, y, z; try discriminate H1; try discriminate H2; try reflexivity.
    unfold tens in *. apply Z.ltb_lt in H1, H2. apply Z.ltb_lt. lia.
  - intros x y z H1 H2. destruct x, y, z; try discriminate H1; try discriminate H2; try reflexivity.
    unfold incomparable, tens in *. rewrite andb_true_iff, !negb_true_iff, !Z.ltb_ge in *. lia.
Qed.
Definition h_ex : heap :=
  [CPair (VFix 31) (VPtr 1); CPair (VFix 12) (VPtr 2); CPair (VFix 11) (VPtr 3); CPair (VFix 35) (VPtr 4);
   CPair (VFix 2) (VPtr 5); CPair (VFix 19) VNull].
Example C21_example_hyps : list_at h_ex (VPtr 0) (map VFix [31; 12; 11; 35; 2; 19]%Z) /\
  decides less_tens tens h_ex (map VFix [31; 12; 11; 35; 2; 19]%Z).
Proof.
  split; [repeat (econstructor; [reflexivity|]); constructor|].
  intros x y h _ _ _. exists (if tens x y then VTrue else VFalse), h. split; auto. split; [apply extends_refl|].
  destruct (tens x y); split; intros; congruence.
Qed.
Fixpoint elems (fuel : nat) (h : heap) (v : val) : list val :=
  match fuel, pair_at h v with S f, Some (a, d) => a :: elems f h d | _, _ => [] end.
Example C21_example :
  match p_sort less_tens 10 (VPtr 0) h_ex with
  | HOk r h' => elems 10 h' r = map VFix [2; 12; 11; 19; 31; 35]%Z /\ firstn 6 h' = h_ex
  | _ => False
  end.
Proof. vm_compute. auto. Qed.
Print Assumptions C21_sort_list.
Print Assumptions C21_sort_vector.
Print Assumptions C21_any_less.
Print Assumptions C21_not_a_sequence.
