(** Specification and lemmas for sorting. *)
From Coq Require Import ZArith NArith Bool Ascii String List Lia Permutation.
From Verif Require Import Base Outcome Arith Heap HeapM Equal EqualProofs Lists ListsProofs Vectors VectorsThm Pairs Sort.
Import ListNotations.
Local Open Scope list_scope.

(** ** Specification *)

(** [le] orders the list: no element comes before an earlier one. *)
Definition in_order {A} (lt : A -> A -> bool) (xs : list A) : Prop :=
  forall i j x y, i < j -> nth_error xs i = Some x -> nth_error xs j = Some y -> lt y x = false.
Definition incomparable {A} (lt : A -> A -> bool) (x y : A) : bool := negb (lt x y) && negb (lt y x).
Record strict_weak_order {A} (lt : A -> A -> bool) : Prop := {
  swo_irrefl : forall x, lt x x = false;
  swo_trans : forall x y z, lt x y = true -> lt y z = true -> lt x z = true;
  swo_incomp : forall x y z, incomparable lt x y = true -> incomparable lt y z = true -> incomparable lt x z = true }.
(** Equivalent elements appear in the same order in both lists. *)
Definition stable {A} (lt : A -> A -> bool) (xs ys : list A) : Prop :=
  forall x, filter (incomparable lt x) xs = filter (incomparable lt x) ys.

(** ** Heap lemmas *)

Lemma NoDup_app_remove_l {A} (l l' : list A) : NoDup (l ++ l') -> NoDup l'.
Proof. induction l; simpl; auto. inversion 1; auto. Qed.
Lemma NoDup_app_remove_r {A} (l l' : list A) : NoDup (l ++ l') -> NoDup l.
Proof.
  induction l; simpl; [constructor|]. inversion 1; subst. constructor; auto.
  intros Hi. apply H2. apply in_app_iff; auto.
Qed.

(** The list [v] of elements [xs] ending in [tl] occupies the cells [ls]. *)
Fixpoint at_cells (h : heap) (ls : list nat) (xs : list val) (tl v : val) : Prop :=
  match ls, xs with
  | [], [] => v = tl
  | l :: ls, x :: xs => v = VPtr l /\ exists d, nth_error h l = Some (CPair x d) /\ at_cells h ls xs tl d
  | _, _ => False
  end.
Definition frame (h h' : heap) (S : list nat) : Prop :=
  length h <= length h' /\ forall l, l < length h -> ~ In l S -> nth_error h' l = nth_error h l.

Lemma extends_iff h h' : extends h h' <-> frame h h' [].
Proof.
  split.
  - intros [e ->]. split; [rewrite app_length; lia|]. intros l Hl _. now apply nth_error_app1.
  - intros [HL H]. revert h' HL H. induction h as [|c h IH]; intros h' HL H; [exists h'; auto|].
    destruct h' as [|c' h']; [simpl in HL; lia|].
    assert (c' = c) as -> by (specialize (H 0 ltac:(simpl; lia) (fun x => x)); simpl in H; congruence).
    destruct (IH h') as [e ->]; [simpl in HL; lia| |exists e; auto].
    intros l Hl _. apply (H (S l)); simpl; auto; lia.
Qed.
Lemma frame_refl h S : frame h h S.
Proof. split; auto. Qed.
Lemma frame_trans h h1 h2 S : frame h h1 S -> frame h1 h2 S -> frame h h2 S.
Proof. intros [A B] [C D]; split; [lia|]. intros l Hl Hn. rewrite D, B; auto; lia. Qed.
Lemma frame_incl h h' S S' : incl S S' -> frame h h' S -> frame h h' S'.
Proof. intros I [A B]; split; auto. Qed.
Lemma frame_ext h h' S : extends h h' -> frame h h' S.
Proof. intros E. apply extends_iff in E. eapply frame_incl; [|exact E]. intros ? []. Qed.
Lemma frame_upd h l c S : In l S -> frame h (upd_cell l c h) S.
Proof.
  intros Hi. split; [rewrite upd_cell_length; auto|]. intros m Hm Hn. apply upd_cell_ne. intros ->. auto.
Qed.
Lemma frame_nth h h' S l c : frame h h' S -> ~ In l S -> nth_error h l = Some c -> nth_error h' l = Some c.
Proof. intros [A B] Hn E. rewrite B; auto. apply nth_error_Some; congruence. Qed.

Lemma at_cells_len h ls : forall xs tl v, at_cells h ls xs tl v -> length ls = length xs.
Proof. induction ls; destruct xs; simpl; intros; try contradiction; auto. destruct H as (_ & d & _ & H). f_equal; eauto. Qed.
Lemma at_cells_frame h h' S ls : forall xs tl v, frame h h' S -> (forall l, In l ls -> ~ In l S) ->
  at_cells h ls xs tl v -> at_cells h' ls xs tl v.
Proof.
  induction ls as [|l ls IH]; destruct xs; simpl; intros; auto. destruct H1 as (-> & d & E & H1).
  split; auto. exists d. split; [eapply frame_nth; eauto|]. eapply IH; eauto.
Qed.
Lemma at_cells_app h ls1 : forall ls2 xs1 xs2 tl v, length ls1 = length xs1 ->
  at_cells h (ls1 ++ ls2) (xs1 ++ xs2) tl v <-> exists m, at_cells h ls1 xs1 m v /\ at_cells h ls2 xs2 tl m.
Proof.
  induction ls1 as [|l ls1 IH]; destruct xs1; simpl; intros xs2 tl w HL; try discriminate.
  - split; [eauto|]. intros (m & -> & H); auto.
  - split.
    + intros (-> & d & E & H). apply IH in H as (m & H1 & H2); [|lia]. exists m. split; auto. split; eauto.
    + intros (m & (-> & d & E & H1) & H2). split; auto. exists d. split; auto. apply IH; [lia|eauto].
Qed.
Lemma at_cells_list h ls : forall xs tl v ys, at_cells h ls xs tl v -> list_at h tl ys -> list_at h v (xs ++ ys).
Proof.
  induction ls as [|l ls IH]; destruct xs; simpl; intros tl w ys H Ht; try contradiction; [subst; auto|].
  destruct H as (-> & d & E & H). econstructor; eauto.
Qed.

Lemma chain_cells h0 xs : forall pre last, xs <> [] ->
  at_cells (h0 ++ pre ++ chain (length h0 + length pre) xs last) (seq (length h0 + length pre) (length xs)) xs last
    (VPtr (length h0 + length pre)).
Proof.
  induction xs as [|x r IH]; intros pre last H; [congruence|]. cbn [length seq at_cells]. split; auto.
  destruct r as [|y r].
  - exists last. split; [|simpl; auto]. cbn [chain].
    rewrite app_assoc, nth_error_app2; rewrite app_length; [|lia]. rewrite Nat.sub_diag. auto.
  - remember (y :: r) as r' eqn:Er.
    assert (E : chain (length h0 + length pre) (x :: r') last =
                CPair x (VPtr (S (length h0 + length pre))) :: chain (S (length h0 + length pre)) r' last)
      by (subst r'; reflexivity).
    rewrite E. exists (VPtr (S (length h0 + length pre))). split.
    + rewrite app_assoc, nth_error_app2; rewrite app_length; [|lia]. rewrite Nat.sub_diag. auto.
    + specialize (IH (pre ++ [CPair x (VPtr (S (length h0 + length pre)))]) last ltac:(subst; discriminate)).
      rewrite app_length in IH. cbn [length] in IH.
      replace (length h0 + (length pre + 1)) with (S (length h0 + length pre)) in IH by lia.
      rewrite <- app_assoc in IH. exact IH.
Qed.

Lemma s_car_ok h l x d : nth_error h l = Some (CPair x d) -> s_car (VPtr l) h = HOk x h.
Proof. intros E. unfold s_car, p_access. cbn. now rewrite E. Qed.
Lemma s_cdr_ok h l x d : nth_error h l = Some (CPair x d) -> s_cdr (VPtr l) h = HOk d h.
Proof. intros E. unfold s_cdr, p_access. cbn. now rewrite E. Qed.
Lemma s_cadr_ok h l x m y d : nth_error h l = Some (CPair x (VPtr m)) -> nth_error h m = Some (CPair y d) ->
  s_cadr (VPtr l) h = HOk y h.
Proof. intros E F. unfold s_cadr, p_access. cbn. rewrite E. cbn. now rewrite F. Qed.
Lemma s_cddr_ok h l x m y d : nth_error h l = Some (CPair x (VPtr m)) -> nth_error h m = Some (CPair y d) ->
  s_cddr (VPtr l) h = HOk d h.
Proof. intros E F. unfold s_cddr, p_access. cbn. rewrite E. cbn. now rewrite F. Qed.
Lemma p_set_cdr_ok h l x d v : nth_error h l = Some (CPair x d) ->
  p_set_cdr (VPtr l) v h = HOk VVoid (upd_cell l (CPair x v) h).
Proof. intros E. unfold p_set_cdr, pairp, m_set_cdr. cbn. now rewrite E. Qed.
Lemma p_set_car_ok h l x d v : nth_error h l = Some (CPair x d) ->
  p_set_car (VPtr l) v h = HOk VVoid (upd_cell l (CPair v d) h).
Proof. intros E. unfold p_set_car, pairp, m_set_car. cbn. now rewrite E. Qed.
Lemma nth_upd_new h l c c' : nth_error h l = Some c -> nth_error (upd_cell l c' h) l = Some c'.
Proof. intros E. apply upd_cell_eq. apply nth_error_Some. congruence. Qed.

(** ** Merging and sorting, given what the calls to [less?] answered *)
Section Answers.
Variable L : val -> val -> bool -> Prop.
Inductive Merge : list val -> list val -> list val -> Prop :=
| MgL ys : Merge [] ys ys
| MgR xs : Merge xs [] xs
| MgB x xs y ys zs : L y x true -> Merge (x :: xs) ys zs -> Merge (x :: xs) (y :: ys) (y :: zs)
| MgA x xs y ys zs : L y x false -> Merge xs (y :: ys) zs -> Merge (x :: xs) (y :: ys) (x :: zs).
Inductive Sorts : list val -> list val -> Prop :=
| So0 : Sorts [] []
| So1 x : Sorts [x] [x]
| So2t x y : L y x true -> Sorts [x; y] [y; x]
| So2f x y : L y x false -> Sorts [x; y] [x; y]
| SoN xs ys zs ws out : Sorts xs zs -> Sorts ys ws -> Merge zs ws out -> Sorts (xs ++ ys) out.

Lemma Merge_perm xs ys zs : Merge xs ys zs -> Permutation (xs ++ ys) zs.
Proof.
  induction 1; simpl; auto.
  - rewrite app_nil_r; auto.
  - rewrite <- IHMerge. simpl. rewrite perm_swap. constructor. symmetry. apply Permutation_middle.
Qed.
Lemma Sorts_perm xs zs : Sorts xs zs -> Permutation xs zs.
Proof.
  induction 1; auto. - constructor. - rewrite IHSorts1, IHSorts2. now apply Merge_perm.
Qed.

Variable less : proc.
Variable h0 : heap.
Variable xs0 : list val.
Hypothesis Hless : forall x y h, In x xs0 -> In y xs0 -> extends h0 h ->
  match less [x; y] h with
  | HOk r h' => extends h h' /\ L x y (truthy r)
  | HErr _ h' => extends h h'
  | HUndef | HFuel => False
  end.

Definition res_ok {A} (h : heap) (S : list nat) (Q : A -> heap -> Prop) (r : hres A) : Prop :=
  match r with
  | HOk a h' => frame h h' S /\ Q a h'
  | HErr e h' => extends h0 h' /\ exists x y h1, In x xs0 /\ In y xs0 /\ extends h0 h1 /\ less [x; y] h1 = HErr e h'
  | HUndef | HFuel => False
  end.
Definition fresh (S : list nat) : Prop := forall l, In l S -> length h0 <= l.

Lemma ext_frame h h' S : extends h0 h -> fresh S -> frame h h' S -> extends h0 h'.
Proof.
  rewrite !extends_iff. intros [A B] F [C D]. split; [lia|]. intros l Hl _. rewrite D; [apply B; auto|lia|].
  intros Hi. apply F in Hi. lia.
Qed.
Lemma res_bind {A B} h S S' (Q : A -> heap -> Prop) (Q' : B -> heap -> Prop) (m : M A) k :
  extends h0 h -> fresh S' -> incl S S' -> res_ok h S Q (m h) ->
  (forall a h', frame h h' S -> extends h0 h' -> Q a h' -> res_ok h' S' Q' (k a h')) ->
  res_ok h S' Q' (bind m k h).
Proof.
  intros E F I H K. unfold bind. destruct (m h) as [a h'|e h'| |]; cbn [res_ok] in *; auto.
  destruct H as [H1 H2].
  assert (E' : extends h0 h') by (eapply ext_frame; eauto; eapply frame_incl; eauto).
  specialize (K a h' H1 E' H2). destruct (k a h') as [b h2|e h2| |]; cbn [res_ok] in *; auto.
  destruct K as [K1 K2]. split; auto. eapply frame_trans; [|exact K1]. eapply frame_incl; eauto.
Qed.
(** A step that succeeds deterministically. *)
Lemma res_step {A B} h S (Q' : B -> heap -> Prop) (m : M A) k a h' :
  m h = HOk a h' -> frame h h' S -> res_ok h' S Q' (k a h') -> res_ok h S Q' (bind m k h).
Proof.
  intros E F K. rewrite (bind_ok _ _ _ _ _ E). destruct (k a h') as [b h2|e h2| |]; cbn [res_ok] in *; auto.
  destruct K as [K1 K2]. split; auto. eapply frame_trans; eauto.
Qed.
Lemma res_less h S x y : In x xs0 -> In y xs0 -> extends h0 h ->
  res_ok h S (fun r h' => extends h h' /\ L x y (truthy r)) (less [x; y] h).
Proof.
  intros Hx Hy E. pose proof (Hless x y h Hx Hy E) as H. destruct (less [x; y] h) as [r h'|e h'| |] eqn:R; cbn [res_ok]; auto.
  - destruct H as [H1 H2]. split; auto. now apply frame_ext.
  - split; [eapply extends_trans; eauto|eauto 8].
Qed.
Lemma res_weaken {A} h S (Q Q' : A -> heap -> Prop) r :
  res_ok h S Q r -> (forall a h', frame h h' S -> Q a h' -> Q' a h') -> res_ok h S Q' r.
Proof. destruct r; cbn [res_ok]; auto. intros [A1 A2] H; auto. Qed.

Ltac rstep := eapply res_step; [ eauto using s_car_ok, s_cdr_ok, s_cadr_ok, s_cddr_ok, p_set_cdr_ok, p_set_car_ok | | ].
Ltac ins := simpl; repeat rewrite in_app_iff; simpl; auto 8.

Lemma merge_loop_ok : forall fuel h lr xr dr la x xs lb y ys a b,
  nth_error h lr = Some (CPair xr dr) -> at_cells h la (x :: xs) VNull a -> at_cells h lb (y :: ys) VNull b ->
  NoDup (lr :: la ++ lb) -> fresh (lr :: la ++ lb) -> extends h0 h ->
  incl (x :: xs) xs0 -> incl (y :: ys) xs0 -> length xs + length ys < fuel ->
  res_ok h (lr :: la ++ lb) (fun _ h' => exists zs ls d, Permutation ls (la ++ lb) /\
      Merge (x :: xs) (y :: ys) zs /\ nth_error h' lr = Some (CPair xr d) /\ at_cells h' ls zs VNull d)
    (merge_loop less fuel (VPtr lr) a b h).
Proof.
  induction fuel as [|f IH]; intros h lr xr dr la x xs lb y ys a b Er Ha Hb ND FR EX Ix Iy Hf; [lia|].
  cbn [merge_loop]. destruct la as [|la0 la]; [contradiction|]. destruct lb as [|lb0 lb]; [contradiction|].
  destruct Ha as (-> & da & Ea & Ha). destruct Hb as (-> & db & Eb & Hb).
  rstep; [apply frame_refl|]. rstep; [apply frame_refl|].
  assert (Iy0 : In y xs0) by (apply Iy; left; auto). assert (Ix0 : In x xs0) by (apply Ix; left; auto).
  eapply res_bind with (S := []); [exact EX|exact FR|intros ? []|apply res_less; auto|].
  intros t h1 F1 EX1 [X1 HL].
  assert (Nlr : forall l, In l ((la0 :: la) ++ lb0 :: lb) -> l <> lr)
    by (intros l Hl ->; inversion ND; auto).
  assert (Er1 : nth_error h1 lr = Some (CPair xr dr)) by (eapply extends_nth; eauto).
  assert (Ea1 : nth_error h1 la0 = Some (CPair x da)) by (eapply extends_nth; eauto).
  assert (Eb1 : nth_error h1 lb0 = Some (CPair y db)) by (eapply extends_nth; eauto).
  assert (Ha1 : at_cells h1 la xs VNull da) by (eapply at_cells_frame; eauto).
  assert (Hb1 : at_cells h1 lb ys VNull db) by (eapply at_cells_frame; eauto).
  assert (Nd : NoDup ((la0 :: la) ++ lb0 :: lb)) by (inversion ND; auto).
  assert (Nab : forall l, In l (la0 :: la) -> In l (lb0 :: lb) -> False).
  { intros l H1 H2. apply in_split in H2 as (u1 & u2 & Hu). rewrite Hu in Nd.
    rewrite app_assoc in Nd. apply NoDup_remove_2 in Nd. apply Nd. rewrite !in_app_iff. auto. }
  assert (NDa : NoDup (la0 :: la)) by (apply NoDup_app_remove_r in Nd; auto).
  assert (NDb : NoDup (lb0 :: lb)) by (apply NoDup_app_remove_l in Nd; auto).
  destruct (truthy t).
  - (* b first *)
    rstep; [apply frame_upd; left; auto|]. set (h2 := upd_cell lr (CPair xr (VPtr lb0)) h1).
    assert (F2 : frame h1 h2 [lr]) by (apply frame_upd; left; auto).
    assert (O2 : forall l, In l ((la0 :: la) ++ lb0 :: lb) -> ~ In l [lr]).
    { intros l Hl [->|[]]. eapply Nlr; eauto. }
    assert (Eb2 : nth_error h2 lb0 = Some (CPair y db)).
    { eapply frame_nth; eauto. apply O2. ins. }
    assert (Er2 : nth_error h2 lr = Some (CPair xr (VPtr lb0))) by (eapply nth_upd_new; eauto).
    assert (Ca2 : at_cells h2 (la0 :: la) (x :: xs) VNull (VPtr la0)).
    { eapply at_cells_frame; [exact F2| |split; eauto]. intros l Hl. apply O2. apply in_app_iff; auto. }
    assert (Hb2 : at_cells h2 lb ys VNull db).
    { eapply at_cells_frame; [exact F2| |exact Hb1]. intros l Hl. apply O2. apply in_app_iff. right; right; auto. }
    rstep; [apply frame_refl|].
    destruct lb as [|lb1 lb]; destruct ys as [|y1 ys]; try contradiction.
    + cbn in Hb2. subst db. cbn [nullp].
      rstep; [apply frame_upd; ins|].
      cbn [ret res_ok]. split; [apply frame_refl|].
      set (h3 := upd_cell lb0 (CPair y (VPtr la0)) h2).
      assert (F3 : frame h2 h3 [lb0]) by (apply frame_upd; left; auto).
      exists (y :: x :: xs), (lb0 :: la0 :: la), (VPtr lb0). split; [|split; [|split]].
      * change (Permutation ([lb0] ++ (la0 :: la)) ((la0 :: la) ++ [lb0])). apply Permutation_app_comm.
      * apply MgB; auto. constructor.
      * eapply frame_nth; eauto. intros [Q|[]]. eapply (Nlr lb0); auto. ins.
      * split; auto. exists (VPtr la0). split; [eapply nth_upd_new; eauto|].
        eapply at_cells_frame; [exact F3| |exact Ca2]. intros l Hl [<-|[]]. eapply Nab; eauto. left; auto.
    + destruct Hb2 as (-> & db' & Eb' & Hb2). cbn [nullp].
      rstep; [apply frame_refl|].
      assert (EX2 : extends h0 h2).
      { apply (ext_frame h1 h2 [lr]); auto. intros l [<-|[]]. apply FR. left; auto. }
      eapply res_weaken.
      { assert (I2 : incl (lb0 :: (la0 :: la) ++ lb1 :: lb) (lr :: (la0 :: la) ++ lb0 :: lb1 :: lb)).
        { intros l. cbn [app In]. rewrite !in_app_iff. cbn [In]. tauto. }
        specialize (IH h2 lb0 y (VPtr lb1) (la0 :: la) x xs (lb1 :: lb) y1 ys (VPtr la0) (VPtr lb1) Eb2 Ca2).
        assert (G : res_ok h2 (lb0 :: (la0 :: la) ++ lb1 :: lb) (fun _ h' => exists zs ls d,
          Permutation ls ((la0 :: la) ++ lb1 :: lb) /\ Merge (x :: xs) (y1 :: ys) zs /\
          nth_error h' lb0 = Some (CPair y d) /\ at_cells h' ls zs VNull d)
          (merge_loop less f (VPtr lb0) (VPtr la0) (VPtr lb1) h2)).
        { apply IH; auto.
          - split; eauto.
          - constructor.
            + intros Hi. apply in_app_iff in Hi as [Hi|Hi]; [eapply Nab; eauto; left; auto|inversion NDb; auto].
            + apply NoDup_remove_1 in Nd. exact Nd.
          - intros l Hl. apply FR. auto.
          - intros z Hz. apply Iy. right; auto.
          - simpl in Hf. lia. }
        instantiate (1 := fun _ h' => frame h2 h' (lb0 :: (la0 :: la) ++ lb1 :: lb) /\ exists zs ls d,
          Permutation ls ((la0 :: la) ++ lb1 :: lb) /\ Merge (x :: xs) (y1 :: ys) zs /\
          nth_error h' lb0 = Some (CPair y d) /\ at_cells h' ls zs VNull d).
        destruct (merge_loop less f _ _ _ h2); cbn [res_ok] in *; auto. destruct G as [G1 G2].
        split; [eapply frame_incl; eauto|auto]. }
      cbn beta. intros _ h3 _ (F3 & zs & ls & d & P & MG & Eb3 & C3).
      exists (y :: zs), (lb0 :: ls), (VPtr lb0). split; [|split; [|split]].
      * rewrite P. apply Permutation_middle.
      * apply MgB; auto.
      * eapply frame_nth; eauto. intros [->|Hi]; [eapply (Nlr lr); auto; ins|].
        apply in_app_iff in Hi. apply (Nlr lr); auto. apply in_app_iff. destruct Hi; auto. right; right; auto.
      * split; eauto.
  - (* a first *)
    rstep; [apply frame_upd; left; auto|]. set (h2 := upd_cell lr (CPair xr (VPtr la0)) h1).
    assert (F2 : frame h1 h2 [lr]) by (apply frame_upd; left; auto).
    assert (O2 : forall l, In l ((la0 :: la) ++ lb0 :: lb) -> ~ In l [lr]).
    { intros l Hl [->|[]]. eapply Nlr; eauto. }
    assert (Ea2 : nth_error h2 la0 = Some (CPair x da)).
    { eapply frame_nth; eauto. apply O2. ins. }
    assert (Er2 : nth_error h2 lr = Some (CPair xr (VPtr la0))) by (eapply nth_upd_new; eauto).
    assert (Cb2 : at_cells h2 (lb0 :: lb) (y :: ys) VNull (VPtr lb0)).
    { eapply at_cells_frame; [exact F2| |split; eauto]. intros l Hl. apply O2. apply in_app_iff; auto. }
    assert (Ha2 : at_cells h2 la xs VNull da).
    { eapply at_cells_frame; [exact F2| |exact Ha1]. intros l Hl. apply O2. apply in_app_iff. left; right; auto. }
    rstep; [apply frame_refl|].
    destruct la as [|la1 la]; destruct xs as [|x1 xs]; try contradiction.
    + cbn in Ha2. subst da. cbn [nullp].
      rstep; [apply frame_upd; ins|].
      cbn [ret res_ok]. split; [apply frame_refl|].
      set (h3 := upd_cell la0 (CPair x (VPtr lb0)) h2).
      assert (F3 : frame h2 h3 [la0]) by (apply frame_upd; left; auto).
      exists (x :: y :: ys), (la0 :: lb0 :: lb), (VPtr la0). split; [|split; [|split]].
      * reflexivity.
      * apply MgA; auto. constructor.
      * eapply frame_nth; eauto. intros [Q|[]]. eapply (Nlr la0); auto. ins.
      * split; auto. exists (VPtr lb0). split; [eapply nth_upd_new; eauto|].
        eapply at_cells_frame; [exact F3| |exact Cb2]. intros l Hl [<-|[]]. eapply Nab; eauto. left; auto.
    + destruct Ha2 as (-> & da' & Ea' & Ha2). cbn [nullp].
      rstep; [apply frame_refl|].
      assert (EX2 : extends h0 h2).
      { apply (ext_frame h1 h2 [lr]); auto. intros l [<-|[]]. apply FR. left; auto. }
      eapply res_weaken.
      { assert (I2 : incl (la0 :: (la1 :: la) ++ lb0 :: lb) (lr :: (la0 :: la1 :: la) ++ lb0 :: lb)).
        { intros l. cbn [app In]. rewrite !in_app_iff. cbn [In]. tauto. }
        assert (G : res_ok h2 (la0 :: (la1 :: la) ++ lb0 :: lb) (fun _ h' => exists zs ls d,
          Permutation ls ((la1 :: la) ++ lb0 :: lb) /\ Merge (x1 :: xs) (y :: ys) zs /\
          nth_error h' la0 = Some (CPair x d) /\ at_cells h' ls zs VNull d)
          (merge_loop less f (VPtr la0) (VPtr la1) (VPtr lb0) h2)).
        { eapply IH; eauto.
          - split; eauto.
          - intros l Hl. apply FR. auto.
          - intros z Hz. apply Ix. right; auto.
          - simpl in Hf. lia. }
        instantiate (1 := fun _ h' => frame h2 h' (la0 :: (la1 :: la) ++ lb0 :: lb) /\ exists zs ls d,
          Permutation ls ((la1 :: la) ++ lb0 :: lb) /\ Merge (x1 :: xs) (y :: ys) zs /\
          nth_error h' la0 = Some (CPair x d) /\ at_cells h' ls zs VNull d).
        destruct (merge_loop less f _ _ _ h2); cbn [res_ok] in *; auto. destruct G as [G1 G2].
        split; [eapply frame_incl; eauto|auto]. }
      cbn beta. intros _ h3 _ (F3 & zs & ls & d & P & MG & Eb3 & C3).
      exists (x :: zs), (la0 :: ls), (VPtr la0). split; [|split; [|split]].
      * cbn [app]. constructor. exact P.
      * apply MgA; auto.
      * eapply frame_nth; eauto. intros [->|Hi]; [eapply (Nlr lr); auto; ins|].
        apply (Nlr lr); auto. right. exact Hi.
      * split; eauto.
Qed.

Lemma merge_ok fuel h la xs lb ys a b : at_cells h la xs VNull a -> at_cells h lb ys VNull b ->
  NoDup (la ++ lb) -> fresh (la ++ lb) -> extends h0 h -> incl xs xs0 -> incl ys xs0 ->
  length xs + length ys <= fuel ->
  res_ok h (la ++ lb) (fun r h' => exists zs ls, Permutation ls (la ++ lb) /\ Merge xs ys zs /\
      at_cells h' ls zs VNull r) (merge less fuel a b h).
Proof.
  intros Ha Hb ND FR EX Ix Iy Hf. unfold merge.
  destruct la as [|la0 la]; destruct xs as [|x xs]; try contradiction.
  { cbn in Ha. subst a. cbn [nullp ret res_ok]. split; [apply frame_refl|]. exists ys, lb. repeat split; auto. constructor. }
  destruct lb as [|lb0 lb]; destruct ys as [|y ys]; try contradiction.
  { cbn in Hb. subst b. destruct Ha as (-> & d & Ha). cbn [nullp ret res_ok]. split; [apply frame_refl|].
    exists (x :: xs), (la0 :: la). rewrite app_nil_r. repeat split; eauto. constructor. }
  destruct Ha as (-> & da & Ea & Ha). destruct Hb as (-> & db & Eb & Hb). cbn [nullp].
  rstep; [apply frame_refl|]. rstep; [apply frame_refl|].
  assert (Iy0 : In y xs0) by (apply Iy; left; auto). assert (Ix0 : In x xs0) by (apply Ix; left; auto).
  eapply res_bind with (S := []); [exact EX|exact FR|intros ? []|apply res_less; auto|].
  intros t h1 F1 EX1 [X1 HL].
  assert (Ea1 : nth_error h1 la0 = Some (CPair x da)) by (eapply extends_nth; eauto).
  assert (Eb1 : nth_error h1 lb0 = Some (CPair y db)) by (eapply extends_nth; eauto).
  assert (Ha1 : at_cells h1 la xs VNull da) by (eapply at_cells_frame; eauto).
  assert (Hb1 : at_cells h1 lb ys VNull db) by (eapply at_cells_frame; eauto).
  assert (Nab : forall l, In l (la0 :: la) -> In l (lb0 :: lb) -> False).
  { intros l H1 H2. apply in_split in H2 as (u1 & u2 & Hu). rewrite Hu in ND.
    rewrite app_assoc in ND. apply NoDup_remove_2 in ND. apply ND. rewrite !in_app_iff. auto. }
  assert (NDa : NoDup (la0 :: la)) by (apply NoDup_app_remove_r in ND; auto).
  assert (NDb : NoDup (lb0 :: lb)) by (apply NoDup_app_remove_l in ND; auto).
  destruct (truthy t).
  - rstep; [apply frame_refl|].
    destruct lb as [|lb1 lb]; destruct ys as [|y1 ys]; try contradiction.
    + cbn in Hb1. subst db. cbn [nullp].
      eapply res_bind with (S := (la0 :: la) ++ [lb0]) (Q := fun _ h' => at_cells h' (lb0 :: la0 :: la) (y :: x :: xs) VNull (VPtr lb0));
        [exact EX1|exact FR|apply incl_refl| |].
      * rstep; [apply frame_upd; ins|]. cbn [ret res_ok]. split; [apply frame_refl|].
        split; auto. exists (VPtr la0). split; [eapply nth_upd_new; eauto|].
        eapply at_cells_frame with (S := [lb0]); [apply frame_upd; left; auto| |split; eauto].
        intros l Hl [<-|[]]. eapply Nab; eauto. left; auto.
      * intros _ h2 _ _ C. cbn [ret res_ok]. split; [apply frame_refl|].
        exists (y :: x :: xs), (lb0 :: la0 :: la). split; [|split; auto].
        -- change (Permutation ([lb0] ++ (la0 :: la)) ((la0 :: la) ++ [lb0])). apply Permutation_app_comm.
        -- apply MgB; auto. constructor.
    + destruct Hb1 as (-> & db' & Eb' & Hb1). cbn [nullp].
      eapply res_bind; [exact EX1|exact FR| | |].
      2:{ rstep; [apply frame_refl|].
          eapply (merge_loop_ok fuel h1 lb0 y (VPtr lb1) (la0 :: la) x xs (lb1 :: lb) y1 ys); eauto.
          - split; eauto.
          - split; eauto.
          - constructor.
            + intros Hi. apply in_app_iff in Hi as [Hi|Hi]; [eapply Nab; eauto; left; auto|inversion NDb; auto].
            + apply NoDup_remove_1 in ND. exact ND.
          - intros l Hl. apply FR. revert Hl. cbn [app In]. rewrite !in_app_iff. cbn [In]. tauto.
          - intros z Hz. apply Iy. right; auto.
          - simpl in Hf. lia. }
      * intros l. cbn [app In]. rewrite !in_app_iff. cbn [In]. tauto.
      * cbn beta. intros _ h2 _ _ (zs & ls & d & P & MG & Eb2 & C). cbn [ret res_ok]. split; [apply frame_refl|].
        exists (y :: zs), (lb0 :: ls). split; [|split].
        -- rewrite P. apply Permutation_middle.
        -- apply MgB; auto.
        -- split; eauto.
  - rstep; [apply frame_refl|].
    destruct la as [|la1 la]; destruct xs as [|x1 xs]; try contradiction.
    + cbn in Ha1. subst da. cbn [nullp].
      eapply res_bind with (S := [la0] ++ lb0 :: lb) (Q := fun _ h' => at_cells h' (la0 :: lb0 :: lb) (x :: y :: ys) VNull (VPtr la0));
        [exact EX1|exact FR|apply incl_refl| |].
      * rstep; [apply frame_upd; ins|]. cbn [ret res_ok]. split; [apply frame_refl|].
        split; auto. exists (VPtr lb0). split; [eapply nth_upd_new; eauto|].
        eapply at_cells_frame with (S := [la0]); [apply frame_upd; left; auto| |split; eauto].
        intros l Hl [<-|[]]. eapply Nab; eauto. left; auto.
      * intros _ h2 _ _ C. cbn [ret res_ok]. split; [apply frame_refl|].
        exists (x :: y :: ys), (la0 :: lb0 :: lb). split; [reflexivity|split; auto].
        apply MgA; auto. constructor.
    + destruct Ha1 as (-> & da' & Ea' & Ha1). cbn [nullp].
      eapply res_bind; [exact EX1|exact FR| | |].
      2:{ rstep; [apply frame_refl|].
          eapply (merge_loop_ok fuel h1 la0 x (VPtr la1) (la1 :: la) x1 xs (lb0 :: lb) y ys); eauto.
          - split; eauto.
          - split; eauto.
          - intros z Hz. apply Ix. right; auto.
          - simpl in Hf. lia. }
      * intros l. cbn [app In]. tauto.
      * cbn beta. intros _ h2 _ _ (zs & ls & d & P & MG & Eb2 & C). cbn [ret res_ok]. split; [apply frame_refl|].
        exists (x :: zs), (la0 :: ls). split; [|split].
        -- cbn [app]. constructor. exact P.
        -- apply MgA; auto.
        -- split; eauto.
Qed.

Lemma incl_app_l' {A} (a b c : list A) : incl (a ++ b) c -> incl a c.
Proof. intros H x Hx. apply H, in_app_iff; auto. Qed.
Lemma incl_app_r' {A} (a b c : list A) : incl (a ++ b) c -> incl b c.
Proof. intros H x Hx. apply H, in_app_iff; auto. Qed.

Lemma step_ok : forall fuel n h ls1 ls2 xs1 xs2 v, Z.of_nat (length xs1) = n -> length ls1 = length xs1 ->
  at_cells h (ls1 ++ ls2) (xs1 ++ xs2) VNull v -> NoDup (ls1 ++ ls2) -> fresh ls1 -> extends h0 h ->
  incl xs1 xs0 -> length xs1 < fuel ->
  res_ok h ls1 (fun rs h' => exists ls zs, Permutation ls ls1 /\ Sorts xs1 zs /\
      at_cells h' ls zs VNull (fst rs) /\ at_cells h' ls2 xs2 VNull (snd rs)) (sort_step less fuel n v h).
Proof.
  induction fuel as [|f IH]; intros n h ls1 ls2 xs1 xs2 v Hn HL C ND FR EX Ix Hf; [lia|].
  cbn [sort_step]. destruct (n >? 2)%Z eqn:N2.
  - rewrite Z.gtb_ltb in N2. apply Z.ltb_lt in N2.
    set (j := Z.quot n 2). assert (Hj : (1 <= j /\ j < n)%Z).
    { unfold j. rewrite Z.quot_div_nonneg by lia. split; [apply Z.div_le_lower_bound; lia|apply Z.div_lt; lia]. }
    assert (exists m, j = Z.of_nat m) as [m Hm] by (exists (Z.to_nat j); lia).
    assert (Hmn : m < length xs1) by lia.
    assert (S1 : xs1 = firstn m xs1 ++ skipn m xs1) by (symmetry; apply firstn_skipn).
    assert (S2 : ls1 = firstn m ls1 ++ skipn m ls1) by (symmetry; apply firstn_skipn).
    assert (LA : length (firstn m xs1) = m) by (rewrite firstn_length; lia).
    assert (LB : length (skipn m xs1) = length xs1 - m) by (apply skipn_length).
    assert (LC : length (firstn m ls1) = m) by (rewrite firstn_length; lia).
    assert (LD : length (skipn m ls1) = length ls1 - m) by (apply skipn_length).
    set (xa := firstn m xs1) in *. set (xb := skipn m xs1) in *.
    set (la := firstn m ls1) in *. set (lb := skipn m ls1) in *. clearbody xa xb la lb. subst xs1 ls1.
    rewrite <- !app_assoc in *. rewrite app_length in *. rewrite ?app_length in HL.
    assert (FRa : fresh la) by (intros l Hl; apply FR; apply in_app_iff; auto).
    assert (FRb : fresh lb) by (intros l Hl; apply FR; apply in_app_iff; auto).
    assert (Dis : forall l, In l (lb ++ ls2) -> ~ In l la).
    { intros l H1 H2. apply in_split in H1 as (u1 & u2 & Hu). rewrite Hu in ND.
      rewrite app_assoc in ND. apply NoDup_remove_2 in ND. apply ND. rewrite !in_app_iff. auto. }
    eapply res_bind; [exact EX|exact FR|apply incl_appl, incl_refl| |].
    { apply (IH j h la (lb ++ ls2) xa (xb ++ xs2) v); auto; try lia. eapply incl_app_l'; eauto. }
    cbn beta. intros [ra sa] h1 F1 EX1 (la' & za & P1 & So1' & C1 & C1'). cbn [fst snd] in *.
    assert (ND2 : NoDup (lb ++ ls2)) by (apply NoDup_app_remove_l in ND; auto).
    assert (Dab : forall l, In l la' -> ~ In l lb).
    { intros l H1 H2. rewrite P1 in H1. eapply Dis; eauto. apply in_app_iff; auto. }
    assert (D2 : forall l, In l ls2 -> ~ In l lb).
    { intros l H1 H2. apply in_split in H1 as (u1 & u2 & Hu). rewrite Hu in ND2.
      rewrite app_assoc in ND2. apply NoDup_remove_2 in ND2. apply ND2. rewrite !in_app_iff. auto. }
    eapply res_bind; [exact EX1|exact FR|apply incl_appr, incl_refl| |].
    { apply (IH (n - j)%Z h1 lb ls2 xb xs2 sa); auto; try lia. eapply incl_app_r'; eauto. }
    cbn beta. intros [rb sb] h2 F2 EX2 (lb' & zb & P2 & So2' & C2 & C2'). cbn [fst snd] in *.
    assert (C1'' : at_cells h2 la' za VNull ra) by (eapply at_cells_frame; eauto).
    assert (PA : Permutation (la' ++ lb') (la ++ lb)) by (rewrite P1, P2; auto).
    eapply res_bind with (S := la' ++ lb'); [exact EX2|exact FR| | |].
    { intros l Hl. eapply Permutation_in; eauto. }
    { apply (merge_ok f h2 la' za lb' zb ra rb); auto.
      - eapply Permutation_NoDup; [symmetry; exact PA|]. rewrite app_assoc in ND. apply NoDup_app_remove_r in ND; auto.
      - intros l Hl. apply FR. eapply Permutation_in; eauto.
      - intros z Hz. apply Sorts_perm in So1'. rewrite <- So1' in Hz. apply Ix, in_app_iff; auto.
      - intros z Hz. apply Sorts_perm in So2'. rewrite <- So2' in Hz. apply Ix, in_app_iff; auto.
      - apply Sorts_perm, Permutation_length in So1', So2'. lia. }
    cbn beta. intros r h3 F3 EX3 (zs & ls & P3 & MG & C3). cbn [ret res_ok]. split; [apply frame_refl|].
    exists ls, zs. cbn [fst snd]. split; [rewrite P3; auto|]. split; [econstructor; eauto|]. split; auto.
    eapply at_cells_frame; [exact F3| |exact C2']. intros l H1 H2. rewrite PA in H2.
    apply in_app_iff in H2 as [H2|H2]; [eapply Dis; eauto; apply in_app_iff; auto|eapply D2; eauto].
  - assert (N3 : (n <= 2)%Z) by (rewrite Z.gtb_ltb in N2; apply Z.ltb_ge in N2; lia).
    destruct (Z.eqb_spec n 2) as [E2|E2]; [|destruct (Z.eqb_spec n 1) as [E1|E1]].
    + destruct xs1 as [|x [|y [|? ?]]]; cbn [length] in *; try lia.
      destruct ls1 as [|l [|m [|? ?]]]; cbn [length] in *; try lia.
      cbn [app] in C. destruct C as (-> & d & El & -> & d' & Em & C).
      assert (Hlm : l <> m).
      { intros ->. inversion ND as [|? ? X]; subst. apply X. left; auto. }
      rstep; [apply frame_refl|]. rstep; [apply frame_refl|]. rstep; [apply frame_refl|].
      eapply res_bind with (S := []); [exact EX|exact FR|intros ? []| |].
      { apply (res_less h [] y x); auto; apply Ix; [right; left|left]; auto. }
      cbn beta. intros t h1 F1 EX1 [X1 HLt].
      assert (El1 : nth_error h1 l = Some (CPair x (VPtr m))) by (eapply extends_nth; eauto).
      assert (Em1 : nth_error h1 m = Some (CPair y d')) by (eapply extends_nth; eauto).
      assert (C1 : at_cells h1 ls2 xs2 VNull d') by (eapply at_cells_frame; eauto).
      assert (D2 : forall k, In k ls2 -> ~ In k [l; m]).
      { intros k Hk [->|[->|[]]].
        - inversion ND as [|? ? X]; subst. apply X. right; auto.
        - inversion ND as [|? ? _ X]; subst. inversion X; auto. }
      assert (FR1 : fresh [l; m]) by auto.
      destruct (truthy t) eqn:Ht.
      * eapply res_bind with (S := [l; m]) (Q := fun _ h' => nth_error h' l = Some (CPair y (VPtr m)) /\
          nth_error h' m = Some (CPair x d') /\ at_cells h' ls2 xs2 VNull d'); [exact EX1|exact FR|apply incl_refl| |].
        { assert (El2 : nth_error (upd_cell l (CPair y (VPtr m)) h1) l = Some (CPair y (VPtr m)))
            by (eapply nth_upd_new; eauto).
          assert (Em2 : nth_error (upd_cell l (CPair y (VPtr m)) h1) m = Some (CPair y d'))
            by (rewrite upd_cell_ne; auto).
          rstep; [apply frame_upd; ins|]. rstep; [apply frame_refl|].
          rewrite (p_set_car_ok _ _ _ _ _ Em2). cbn [res_ok]. split; [apply frame_upd; ins|].
          split; [rewrite upd_cell_ne; auto|]. split; [eapply nth_upd_new; eauto|].
          eapply at_cells_frame; [|exact D2|exact C1]. eapply frame_trans; apply frame_upd; ins. }
        cbn beta. intros _ h2 F2 EX2 (El2 & Em2 & C2). rstep; [apply frame_refl|].
        rstep; [apply frame_upd; ins|]. cbn [ret res_ok fst snd]. split; [apply frame_refl|].
        exists [l; m], [y; x]. split; auto. split; [constructor; auto|]. split.
        -- cbn [at_cells]. split; auto. exists (VPtr m). split; [rewrite upd_cell_ne; auto|].
           split; auto. exists VNull. split; auto. eapply nth_upd_new; eauto.
        -- eapply at_cells_frame; [|exact D2|exact C2]. apply frame_upd; ins.
      * eapply res_bind with (S := []) (Q := fun _ h' => h' = h1); [exact EX1|exact FR|intros ? []| |].
        { cbn [ret res_ok]. split; auto using frame_refl. }
        cbn beta. intros _ h2 _ _ ->. rstep; [apply frame_refl|].
        rstep; [apply frame_upd; ins|]. cbn [ret res_ok fst snd]. split; [apply frame_refl|].
        exists [l; m], [x; y]. split; auto. split; [constructor; auto|]. split.
        -- cbn [at_cells]. split; auto. exists (VPtr m). split; [rewrite upd_cell_ne; auto|].
           split; auto. exists VNull. split; auto. eapply nth_upd_new; eauto.
        -- eapply at_cells_frame; [|exact D2|exact C1]. apply frame_upd; ins.
    + destruct xs1 as [|x [|? ?]]; cbn [length] in *; try lia.
      destruct ls1 as [|l [|? ?]]; cbn [length] in *; try lia.
      cbn [app] in C. destruct C as (-> & d & El & C).
      rstep; [apply frame_refl|]. rstep; [apply frame_upd; ins|]. cbn [ret res_ok fst snd]. split; [apply frame_refl|].
      exists [l], [x]. split; auto. split; [constructor|]. split.
      * cbn. split; auto. exists VNull. split; auto. eapply nth_upd_new; eauto.
      * eapply at_cells_frame; [|  |exact C]. apply frame_upd with (S := [l]); left; auto.
        intros k Hk [->|[]]. inversion ND; auto.
    + destruct xs1; cbn [length] in *; try lia. destruct ls1; cbn [length] in *; try lia.
      cbn [ret res_ok fst snd]. split; [apply frame_refl|]. exists [], []. split; auto. split; [constructor|].
      split; [reflexivity|exact C].
Qed.

Lemma sort_bang_ok fuel h ls xs v : at_cells h ls xs VNull v -> NoDup ls -> fresh ls -> extends h0 h ->
  incl xs xs0 -> length xs < fuel ->
  res_ok h ls (fun r h' => exists ls' zs, Permutation ls' ls /\ Sorts xs zs /\ at_cells h' ls' zs VNull r)
    (sort_bang less fuel v h).
Proof.
  intros C ND FR EX Ix Hf. unfold sort_bang.
  assert (LA : list_at h v xs).
  { rewrite <- (app_nil_r xs). eapply at_cells_list; eauto. constructor. }
  eapply res_step with (h' := h) (a := VFix (Z.of_nat (length xs))); [|apply frame_refl|].
  { unfold p_length, m_listp. erewrite bind_ok by (rewrite (listp_ok _ _ _ _ LA) by lia; reflexivity). cbv iota.
    erewrite bind_ok by (apply list_length_ok; eauto; lia). reflexivity. }
  eapply res_bind with (S := ls); [exact EX|exact FR|apply incl_refl| |].
  { apply (step_ok fuel _ h ls [] xs [] v); auto.
    - eapply at_cells_len; eauto.
    - rewrite !app_nil_r; auto.
    - rewrite app_nil_r; auto. }
  cbn beta. intros [r s] h' F' EX' (ls' & zs & P & So & C1 & C2). cbn [ret res_ok fst snd] in *.
  split; [apply frame_refl|eauto 6].
Qed.

Lemma vec_to_list_cells ys : forall i h v tl ls, i <= length ys -> at_cells h ls tl VNull v ->
  (forall l, In l ls -> length h0 <= l < length h) -> NoDup ls -> extends h0 h ->
  exists r h' ls', vec_to_list_loop ys i v h = HOk r h' /\ extends h h' /\
    at_cells h' ls' (firstn i ys ++ tl) VNull r /\ NoDup ls' /\ fresh ls'.
Proof.
  induction i as [|i IH]; intros h v tl ls Hi C Hl ND EX.
  - exists v, h, ls. split; auto. split; auto using extends_refl. split; auto. split; auto.
    intros l Hin. apply Hl; auto.
  - cbn [vec_to_list_loop]. destruct (nth_error ys i) as [x|] eqn:E; [|apply nth_error_None in E; lia].
    stc. destruct (IH (h ++ [CPair x v]) (VPtr (length h)) (x :: tl) (length h :: ls)) as (r & h' & ls' & Er & X & R); [lia| | | | |].
    + split; auto. exists v. split; [apply nth_snoc_new|].
      eapply at_cells_frame with (S := []); [apply frame_ext, extends_snoc|auto|exact C].
    + intros l [<-|Hin]; rewrite app_length; cbn [length].
      * apply extends_len in EX. lia.
      * apply Hl in Hin. lia.
    + constructor; auto. intros Hin. apply Hl in Hin. lia.
    + eapply extends_trans; eauto using extends_snoc.
    + exists r, h', ls'. split; [exact Er|]. split; [eapply extends_trans; eauto using extends_snoc|].
      assert (F : firstn (S i) ys = firstn i ys ++ [x]).
      { clear - E. revert i E; induction ys as [|a ys IH]; intros [|i] E; simpl in *; try discriminate; [congruence|].
        f_equal. now apply IH. }
      rewrite F, <- app_assoc. exact R.
Qed.
End Answers.

(** ** What answers consistent with an order give *)
Section Order.
Variable lt : val -> val -> bool.
Hypothesis SWO : strict_weak_order lt.
Definition answers (y x : val) (b : bool) : Prop := b = lt y x.

Lemma le_trans x y z : lt y x = false -> lt z y = false -> lt z x = false.
Proof.
  intros H1 H2. destruct (lt z x) eqn:E; auto. exfalso.
  destruct (lt x y) eqn:E1.
  - rewrite (swo_trans _ SWO z x y) in H2; congruence.
  - destruct (lt y z) eqn:E2.
    + rewrite (swo_trans _ SWO y z x) in H1; congruence.
    + assert (X : incomparable lt x z = true).
      { apply (swo_incomp _ SWO x y z); unfold incomparable.
        - now rewrite E1, H1.
        - now rewrite E2, H2. }
      unfold incomparable in X. rewrite E in X. rewrite andb_false_r in X. discriminate.
Qed.

Fixpoint ord (xs : list val) : Prop :=
  match xs with [] => True | x :: r => (forall y, In y r -> lt y x = false) /\ ord r end.
Lemma ord_in_order xs : ord xs -> in_order lt xs.
Proof.
  induction xs as [|x xs IH]; simpl; intros H i j a b Hij Ha Hb.
  - destruct i; discriminate.
  - destruct H as [H1 H2]. destruct j as [|j]; [lia|]. simpl in Hb. destruct i as [|i].
    + injection Ha as ->. apply H1. eapply nth_error_In; eauto.
    + apply (IH H2 i j); auto. lia.
Qed.
Lemma Merge_ord xs ys zs : Merge answers xs ys zs -> ord xs -> ord ys -> ord zs.
Proof.
  induction 1; intros Hx Hy; auto.
  - cbn [ord] in *. destruct Hx as [Hx1 Hx2], Hy as [Hy1 Hy2]. split; [|apply IHMerge; auto].
    intros z Hz. apply Merge_perm in H0. rewrite <- H0 in Hz. apply in_app_iff in Hz as [[<-|Hz]|Hz].
    + unfold answers in H. destruct (lt x y) eqn:E; auto.
      rewrite <- (swo_irrefl _ SWO x), (swo_trans _ SWO x y x); auto.
    + assert (lt x y = false).
      { unfold answers in H. destruct (lt x y) eqn:E; auto.
        rewrite <- (swo_irrefl _ SWO x), (swo_trans _ SWO x y x); auto. }
      eapply le_trans; eauto.
    + auto.
  - cbn [ord] in *. destruct Hx as [Hx1 Hx2], Hy as [Hy1 Hy2]. split; [|apply IHMerge; auto].
    intros z Hz. apply Merge_perm in H0. rewrite <- H0 in Hz. apply in_app_iff in Hz as [Hz|[<-|Hz]].
    + auto.
    + unfold answers in H. auto.
    + eapply le_trans; [|apply Hy1; auto]. unfold answers in H. auto.
Qed.
Lemma Merge_stable xs ys zs : Merge answers xs ys zs -> ord xs -> ord ys -> stable lt (xs ++ ys) zs.
Proof.
  intros H Hx Hy z. rewrite filter_app. induction H; cbn [filter app] in *; auto.
  - now rewrite app_nil_r.
  - cbn [ord] in *. destruct Hx as [Hx1 Hx2], Hy as [Hy1 Hy2].
    rewrite <- IHMerge by (cbn [ord]; auto). destruct (incomparable lt z y) eqn:E; auto.
    (* then no element of x :: xs is equivalent to z *)
    assert (N : forall w, In w (x :: xs) -> incomparable lt z w = false).
    { intros w Hw. destruct (incomparable lt z w) eqn:E2; auto. exfalso.
      assert (E3 : incomparable lt y w = true).
      { apply (swo_incomp _ SWO y z w); auto. unfold incomparable in *. rewrite andb_comm. exact E. }
      unfold incomparable in E3. apply andb_true_iff in E3 as [E3 _]. apply negb_true_iff in E3.
      unfold answers in H. destruct Hw as [<-|Hw]; [congruence|].
      (* y < x <= w *)
      assert (lt w x = false) by auto.
      assert (lt y x = false) by (apply (le_trans x w y); auto). congruence. }
    assert (F : filter (incomparable lt z) (x :: xs) = []).
    { clear - N. revert N. generalize (x :: xs) as l. induction l as [|a l IH]; intros N; auto.
      cbn [filter]. rewrite (N a) by (left; auto). apply IH. intros w Hw. apply N. right; auto. }
    cbn [filter] in F. rewrite F. reflexivity.
  - cbn [ord] in *. destruct Hx as [Hx1 Hx2], Hy as [Hy1 Hy2].
    rewrite <- IHMerge by (cbn [ord]; auto). destruct (incomparable lt z x); auto.
Qed.
Lemma Sorts_ord xs zs : Sorts answers xs zs -> ord zs /\ stable lt xs zs.
Proof.
  induction 1; try (split; [simpl; intuition (auto; contradiction)|intros z; reflexivity]).
  - split.
    + simpl. unfold answers in H. split; [|split; [intros ? []|auto]]. intros w [<-|[]].
      destruct (lt x y) eqn:E; auto. rewrite <- (swo_irrefl _ SWO x), (swo_trans _ SWO x y x); auto.
    + intros z. cbn [filter]. unfold answers in H.
      destruct (incomparable lt z x) eqn:E1, (incomparable lt z y) eqn:E2; auto.
      assert (X : incomparable lt y x = true).
      { apply (swo_incomp _ SWO y z x); auto. unfold incomparable in *. rewrite andb_comm. exact E2. }
      unfold incomparable in X. rewrite <- H in X. discriminate.
  - split; [|intros z; reflexivity]. simpl. unfold answers in H. split; [|split; [intros ? []|auto]].
    intros w [<-|[]]. auto.
  - destruct IHSorts1 as [A1 A2], IHSorts2 as [B1 B2]. split; [eapply Merge_ord; eauto|].
    intros z. rewrite filter_app, A2, B2, <- filter_app. eapply Merge_stable; eauto.
Qed.
End Order.
