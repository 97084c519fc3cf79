(** What split-stx-list is to do, and running its text. *)
From Coq Require Import ZArith NArith Bool Ascii String List Arith Lia.
From Verif Require Import Base Heap HeapM Ast Sem Check Lists SimLemmas LibText LibTextProofs LibTextRun PathTextProofs PathTextRun StxText StxTextProofs StxSplit.
Import ListNotations.
Local Open Scope list_scope.

(** ** Specification *)

(** Going along an object, through pairs and syntax objects around pairs: [walk h v xs t] when
    [xs] are the elements passed on the way from [v] to [t].  All objects on the way exist. *)
Inductive walk (h : heap) : val -> list val -> val -> Prop :=
| WalkEnd v : alive h v -> walk h v [] v
| WalkCons v a d xs t : alive h v -> pair_at h (inside h v) = Some (a, d) -> walk h d xs t -> walk h v (a :: xs) t.
(** What the end counts for: 1 if the list need not be proper, else 0 if it is and -1 if it is not. *)
Definition end_count (h : heap) (p t : val) : Z := if truthy p then if nullp (inside h t) then 0%Z else (-1)%Z else 1%Z.

Definition split_base : list string := ["<"; "="; "+"; "null"]%string.
Definition split_names : list string := stx_names ++ split_base ++ ["split-stx-list"%string].

Section Spec.
  Variable prim : N -> list val -> heap -> option presult.
  Local Notation returns := (returns prim).
  Definition is_below (s : store) f := forall a b, returns s f [VFix a; VFix b] (of_bool (a <? b)%Z).
  Definition is_plus_one (s : store) f := forall a, (-1 <= a)%Z -> (a + 1 < 2 ^ 62)%Z -> returns s f [VFix a; VFix 1] (VFix (a + 1)).
  Definition is_empty (s : store) v := v = VNull.
  (** The object is cut so that what follows the cut has [n] elements, the end counted as
      [end_count] says, or as many as there are if there are less (none, if the end counts
      for more than [n]): the results are a new list of the elements before the cut, the
      object after it, and whether there are [n]. *)
  Definition is_split (s : store) f :=
    forall v xs t n p, walk (heap_of s) v xs t -> pairp (heap_of s) (inside (heap_of s) t) = false -> p <> VUnbound -> (n < 2 ^ 62)%Z ->
      exists front back pre w s',
        apply prim s f [v; VFix n; p] (RVals [pre; w; of_bool (end_count (heap_of s) p t + Z.of_nat (List.length back) =? n)%Z]) s' /\
        grows s s' /\ xs = front ++ back /\
        List.length back = Nat.min (List.length xs) (Z.to_nat (n - end_count (heap_of s) p t)) /\
        walk (heap_of s) v front w /\ walk (heap_of s) w back t /\ list_at (heap_of s') pre front.
End Spec.

Lemma walk_alive h v xs t : walk h v xs t -> alive h v.
Proof. now inversion 1. Qed.

Section Text.
  Variable names : list string.
  Hypothesis HN : incl split_names names.
  Variable prim : N -> list val -> heap -> option presult.
  Variable complaint : val -> val -> err.
  Variable lit : obj -> val.
  Hypothesis HL : literals lit.
  Variable s0 : store.
  Local Notation has := (has names s0).
  Local Notation later := (later names).
  Lemma split_name x : existsb (String.eqb x) split_names = true -> In x names.
  Proof. intros H. apply HN. apply existsb_exists in H. destruct H as (y & I & E). apply String.eqb_eq in E. now subst. Qed.
  Ltac nm := apply split_name; reflexivity.
  Ltac stp := repeat lib_step nm.
  Ltac from_text LD :=
    match type of LD with loaded _ _ ?t =>
      let e := eval vm_compute in (code_of lit t) in
      match e with EDefine [Id ?x] (ELam ?fm ?body) =>
        apply (loaded_is names lit s0 t x fm body); [vm_cast_no_check (eq_refl e)|exact LD|]
      end
    end.
  Lemma wfix z : lit (OFix z) = VFix z.
  Proof. apply HL. Qed.
  Lemma run_values t r s es (Q : res -> store -> Prop) :
    runargs prim t r s es (fun a s2 => match a with inl vs => Q (RVals vs) s2 | inr y => Q (RErr y) s2 end) -> run prim t r s (EValues es) Q.
  Proof. intros ([vs|y] & s2 & A & H); [exists (RVals vs), s2|exists (RErr y), s2]; split; auto; now constructor. Qed.
  Lemma run_let3 t r s x y z e body (Q : res -> store -> Prop) :
    run prim t r s e (fun o s1 => match o with
      | RVals [a; b; c] => a <> VUnbound /\ b <> VUnbound /\ c <> VUnbound /\
          (forall s2 i j k, grows s1 s2 -> cell_is s2 i a -> cell_is s2 j b -> cell_is s2 k c ->
             runseq prim t ((z, k) :: (y, j) :: (x, i) :: r) s2 body Q)
      | RVals _ => False
      | RErr q => Q (RErr q) s1
      end) -> run prim t r s (ELet [([x; y; z], e)] body) Q.
  Proof.
    intros ([vs|q] & s1 & A & H).
    - destruct vs as [|a [|b [|c [|? ?]]]]; try contradiction. destruct H as (NA & NB & NC & H).
      destruct (H (add_cells [a; b; c] s1) _ _ _ (grows_add_cells _ _) (nth_split_cell s1 [a; b; c] 0 a eq_refl NA)
        (nth_split_cell s1 [a; b; c] 1 b eq_refl NB) (nth_split_cell s1 [a; b; c] 2 c eq_refl NC)) as (o & s2 & D & HQ).
      exists o, s2. split; auto. eapply EvLet; [eapply (EbCons _ _ _ _ _ _ _ [a; b; c]); [exact A|reflexivity|constructor]|exact D].
    - exists (RErr q), s1. split; auto. apply EvLetErr. now apply EbErr.
  Qed.

  Hypothesis Hpair : has "stx-pair?" (is_stx_pair prim).
  Hypothesis Hnull : has "stx-null?" (is_stx_null prim).
  Hypothesis Hcar : has "stx-car" (is_stx_part prim complaint "car" fst).
  Hypothesis Hcdr : has "stx-cdr" (is_stx_part prim complaint "cdr" snd).
  Hypothesis Hcons : has "cons" (is_cons prim).
  Hypothesis Hless : has "<" (is_below prim).
  Hypothesis Hsame : has "=" (is_same_number prim).
  Hypothesis Hplus : has "+" (is_plus_one prim).
  Hypothesis Hempty : has "null" is_empty.

  Lemma stx_pair_then so s f v : is_stx_pair prim s f -> grows so s -> alive (heap_of so) v ->
    returns prim s f [v] (of_bool (pairp (heap_of so) (inside (heap_of so) v))).
  Proof. intros B G L. pose proof (B v (kept_alive _ _ G _ L)) as H. now rewrite (kept_inside _ _ G _ (proj1 L)), (kept_pairp _ _ G _ (proj2 L)) in H. Qed.
  Lemma stx_null_then so s f v : is_stx_null prim s f -> grows so s -> alive (heap_of so) v ->
    returns prim s f [v] (of_bool (nullp (inside (heap_of so) v))).
  Proof. intros B G L. pose proof (B v (kept_alive _ _ G _ L)) as H. now rewrite (kept_inside _ _ G _ (proj1 L)) in H. Qed.
  Lemma stx_part_then name pick so s f v p : is_stx_part prim complaint name pick s f -> grows so s -> alive (heap_of so) v ->
    pair_at (heap_of so) (inside (heap_of so) v) = Some p -> returns prim s f [v] (pick p).
  Proof.
    intros B G L E. apply (proj1 B); [now apply (kept_alive _ _ G)|]. rewrite (kept_inside _ _ G _ (proj1 L)), (kept_pair _ _ G _ (proj2 L)). exact E.
  Qed.
  Ltac empty := eapply run_global; [exact Hempty|reflexivity|nm|eassumption|];
    let e := fresh "e" in let E := fresh "E" in intros e _ E; rewrite (E _ ltac:(eassumption) ltac:(eassumption)) in *; clear e E; cbv beta iota.

  Lemma split_ok : loaded lit s0 split_stx_list_text -> has "split-stx-list" (is_split prim).
  Proof.
    intros LD. from_text LD. intros so f LT GD P. assert (R := grows_refl so). intros v xs t n p W NP UP BN.
    assert (NV := live_bound _ _ (proj1 (walk_alive _ _ _ _ W))).
    set (m0 := end_count (heap_of so) p t).
    assert (M0 : (-1 <= m0)%Z) by (unfold m0, end_count; destruct (truthy p); [destruct (nullp _)|]; lia).
    assert (OUT : runap prim so f [v; VFix n; p] (fun o s' => grows so s' /\ exists front back pre w,
      o = RVals [pre; w; of_bool (m0 + Z.of_nat (List.length back) =? n)%Z] /\ xs = front ++ back /\
      List.length back = Nat.min (List.length xs) (Z.to_nat (n - m0)) /\
      walk (heap_of so) v front w /\ walk (heap_of so) w back t /\ list_at (heap_of s') pre front)).
    { eapply runap_clo3; [exact P|exact NV|discriminate|exact UP|]. intros s1 b c d G1 _ _ _ C1 C2 C3. pcarry G1. apply runseq_one. apply run_let3.
      eapply run_loop; [assumption|]. intros lp s G CL PL.
      match type of CL with cell_is _ (List.length (cells_of ?z)) _ => set (i := List.length (cells_of z)) in *; clearbody i end. pcarry G.
      assert (LOOP : forall xs v z, walk (heap_of so) v xs t -> grows so z -> later s0 z -> good z -> cell_is z i lp -> cell_is z c (VFix n) -> cell_is z d p ->
        proc_at lp (procs_of z) = proc_at lp (procs_of s) ->
        runap prim z lp [v] (fun o s' => grows z s' /\ exists front back pre w,
          o = RVals [pre; w; VFix (m0 + Z.of_nat (List.length back))] /\ xs = front ++ back /\
          List.length back = Nat.min (List.length xs) (Z.to_nat (n - m0)) /\
          walk (heap_of so) v front w /\ walk (heap_of so) w back t /\ list_at (heap_of s') pre front)).
      { rewrite PL. clear - HN HL Hpair Hnull Hcar Hcdr Hcons Hless Hsame Hplus Hempty NP UP BN M0. subst m0.
        induction xs as [|x xs IH]; intros v z W R LT GD CL C2 C3 PL; assert (R1 := grows_refl z); assert (AV := walk_alive _ _ _ _ W).
        - inversion W; subst. eapply runap_clo1; [exact PL|exact (live_bound _ _ (proj1 AV))|]. intros z1 c1 G1 _ C. pcarry G1. stp.
          replied ltac:(eapply stx_pair_then; [exact B|exact R|exact AV]). rewrite NP. cbn [of_bool truthy].
          apply run_values. apply runargs_cons. empty. apply runargs_cons. stp. unfold end_count. destruct (truthy p) eqn:TP; stp.
          + replied ltac:(eapply stx_null_then; [exact B0|exact R|exact AV]). destruct (nullp (inside (heap_of so) t)) eqn:TN; cbn [of_bool truthy]; stp; rewrite wfix.
            * split; auto. exists [], [], VNull, t. repeat split; auto; constructor; auto.
            * split; auto. exists [], [], VNull, t. repeat split; auto; constructor; auto.
          + rewrite wfix. split; auto. exists [], [], VNull, t. repeat split; auto; constructor; auto.
        - inversion W as [|? ? dd ? ? AV' PA W']; subst. clear AV'.
          eapply runap_clo1; [exact PL|exact (live_bound _ _ (proj1 AV))|]. intros z1 c1 G1 _ C. pcarry G1. stp.
          replied ltac:(eapply stx_pair_then; [exact B|exact R|exact AV]). unfold pairp. rewrite PA. cbn [of_bool truthy]. apply run_let3. stp.
          replied ltac:(eapply stx_part_then; [exact B0|exact R|exact AV|exact PA]). cbn [snd]. stp.
          eapply runap_imp; [eapply (IH dd); eauto|]. intros o z4 (G4 & front & back & pre & w & -> & -> & LB & W1 & W2 & LP). pcarry G4.
          split; [eapply list_bound; eauto|]. split; [exact (live_bound _ _ (proj1 (walk_alive _ _ _ _ W2)))|]. split; [discriminate|].
          intros z5 j1 j2 j3 G5 D1 D2 D3. pcarry G5. stp. replied ltac:(apply B1).
          set (m0 := end_count (heap_of so) p t) in *. rewrite app_length in LB.
          destruct (Z.ltb_spec (m0 + Z.of_nat (List.length back)) n) as [LTM|GEM]; cbn [of_bool truthy].
          + apply run_values. apply runargs_cons. empty. stp. rewrite wfix. replied ltac:(apply B2; lia). stp.
            assert (F0 : front = []) by (destruct front; auto; cbn [List.length] in LB; lia). subst front. cbn [app] in *.
            split; auto. exists [], (x :: back), VNull, v. split; [replace (m0 + Z.of_nat (List.length (x :: back)))%Z with (m0 + Z.of_nat (List.length back) + 1)%Z by (cbn [List.length]; lia); reflexivity|]. split; auto. split; [cbn [List.length] in *; lia|].
            split; [now constructor|]. split; [exact W|constructor].
          + apply run_values. stp. replied ltac:(eapply stx_part_then; [exact B2|exact R|exact AV|exact PA]). cbn [fst]. stp. replied_cons ltac:(exact B3). stp.
            split; auto. exists (x :: front), back, w0, w. split; auto. split; auto. split; [cbn [List.length app]; rewrite app_length; lia|].
            split; [econstructor; eauto|]. split; auto. eapply list_at_cons; eauto. }
      stp. eapply runap_imp; [eapply LOOP; eauto|]. intros o z (Gz & front & back & pre & w & -> & E & LB & W1 & W2 & LP). pcarry Gz.
      split; [eapply list_bound; eauto|]. split; [exact (live_bound _ _ (proj1 (walk_alive _ _ _ _ W2)))|]. split; [discriminate|].
      intros z5 j1 j2 j3 G5 D1 D2 D3. pcarry G5. apply runseq_one. apply run_values. stp. replied ltac:(apply B). stp.
      split; [assumption|]. exists front, back, pre, w. do 5 (split; [first [reflexivity|assumption]|]). assumption. }
    destruct OUT as (o & s' & A & G & front & back & pre & w & -> & E & LB & W1 & W2 & LP). exists front, back, pre, w, s'. do 6 (split; [first [reflexivity|assumption]|]). assumption.
  Qed.
End Text.
