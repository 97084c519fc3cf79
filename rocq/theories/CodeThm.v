(** C48: the listing of a code object (src/core/c/jit.c:16-70) inverts its
    writing (src/core/c/jit.c:72-147); C28, first half: jumps of written code. *)
From Coq Require Import ZArith NArith Bool Ascii String List Arith Lia.
From Verif Require Import Base Heap Ast Code CodeProofs.
Import ListNotations.
Local Open Scope list_scope.

Definition swap {A B} (p : A * B) : B * A := (snd p, fst p).

Fixpoint ends_lab {C} (b : bool) (its : list (item C)) : bool :=
  match its with [] => b | Lab _ :: r => ends_lab true r | Ins _ :: r => ends_lab false r end.

Lemma lead_pos_app {C} (pre : list (item C)) : forall its k b,
  lead_pos k b (pre ++ its) = lead_pos k b pre ++ lead_pos (k + ninstr pre) (ends_lab b pre) its.
Proof.
  induction pre as [|[l|i] r IH]; intros its k b; simpl.
  - rewrite Nat.add_0_r. reflexivity.
  - destruct b; rewrite IH; reflexivity.
  - rewrite IH, Nat.add_succ_r. reflexivity.
Qed.

Lemma lead_pos_bounds {C} (its : list (item C)) : forall k b l p,
  In (l, p) (lead_pos k b its) ->
  k <= p /\ (b = true -> k < p) /\ p <= k + ninstr its /\ (ends_lab b its = false -> p < k + ninstr its).
Proof.
  induction its as [|[l'|i] r IH]; intros k b l p I; simpl in *; [destruct I| |].
  - destruct b; [apply IH in I; intuition lia|]. destruct I as [[= -> ->]|I].
    + split; [lia|]. split; [discriminate|]. split; [lia|].
      clear IH. assert (G : forall b (its : list (item C)), ends_lab b its = false -> b = true -> 0 < ninstr its).
      { clear. intros b its. revert b. induction its as [|[l|i] r IH]; intros b; simpl; [congruence| |lia]. intros. eapply IH; eauto. }
      intros E. specialize (G _ _ E eq_refl). lia.
    + apply IH in I. intuition lia.
  - apply IH in I. intuition lia.
Qed.

Lemma lead_pos_NoDup {C} (its : list (item C)) : forall k b, NoDup (map snd (lead_pos k b its)).
Proof.
  induction its as [|[l|i] r IH]; intros k b; simpl; [constructor| |apply IH].
  destruct b; [apply IH|]. simpl. constructor; [|apply IH].
  intros I. apply in_map_iff in I. destruct I as [[l' p] [E I]]. simpl in E. subst.
  apply lead_pos_bounds in I. destruct I as [_ [H _]]. specialize (H eq_refl). lia.
Qed.

Lemma assq_swap (rel : list (nat * nat)) l p :
  NoDup (map snd rel) -> In (l, p) rel -> assq p (map swap rel) = Some l.
Proof.
  induction rel as [|[a b] r IH]; intros ND I; [destruct I|]. simpl in *. inversion ND as [|? ? N ND']; subst.
  destruct (Nat.eqb_spec b p) as [->|D].
  - destruct I as [E|I]; [congruence|]. exfalso. apply N. apply in_map_iff. exists (l, p). auto.
  - destruct I as [E|I]; [congruence|auto].
Qed.

Lemma assq_swap_none (rel : list (nat * nat)) p : ~ In p (map snd rel) -> assq p (map swap rel) = None.
Proof.
  intros N. apply assq_None. rewrite map_map. intros I. apply N.
  apply in_map_iff in I. destruct I as [x [E I]]. apply in_map_iff. exists x. auto.
Qed.

Lemma inv_reloc_app (rel inv : list (nat * nat)) :
  NoDup (map snd rel) -> (forall l p, In (l, p) rel -> assq p inv = None) -> inv_reloc rel inv = inv ++ map swap rel.
Proof.
  revert inv. induction rel as [|[l p] r IH]; intros inv ND H; simpl; [rewrite app_nil_r; auto|].
  inversion ND as [|? ? N ND']; subst. rewrite IH; auto.
  - rewrite assq_set_new by (eapply H; simpl; eauto). rewrite <- app_assoc. reflexivity.
  - intros l' p' I. rewrite assq_set_other; [eapply H; simpl; eauto|].
    intros ->. apply N. apply in_map_iff. exists (l', p). auto.
Qed.

Lemma assq_In {B} k (b : B) l : assq k l = Some b -> In (k, b) l.
Proof.
  induction l as [|[a c] r IH]; simpl; [discriminate|]. destruct (Nat.eqb_spec a k) as [->|]; [intros [= ->]; auto|auto].
Qed.

Lemma retarget_inverse {T T' C} (f : T -> option T') (g : T' -> option T) (i : instr T C) i' :
  retarget f Some i = Some i' -> (forall t t', f t = Some t' -> g t' = Some t) -> retarget g Some i' = Some i.
Proof.
  intros R H. assert (RT := retarget_target _ _ _ _ R).
  destruct i; simpl in *; try (injection R as <-; reflexivity);
    try (destruct (f t) as [t'|] eqn:E; simpl in R; [|discriminate]; injection R as <-; simpl; rewrite (H _ _ E); reflexivity).
Qed.

Section List.
  Variable rel : list (nat * nat).
  Let write_one := fun it : nat * item code =>
    match snd it with Ins i => retarget (fun l => assq l rel) Some i | Lab _ => None end.

  Lemma listing (its : list (item code)) : forall j k b is (pre_rel : list (nat * nat)),
    map_opt write_one (stream j its) = Some is ->
    rel = pre_rel ++ lead_pos k b its ->
    NoDup (map snd rel) ->
    (forall l p, In (l, p) pre_rel -> p <= k /\ (b = false -> p < k)) ->
    (its = [] -> b = false) -> (exists i q, its = q ++ [Ins i]) \/ its = [] ->
    instrs_loop k is (map swap rel) =
      Some ((if b then match assq k (map swap rel) with Some l => [Lab l] | None => [] end else []) ++ squash b its).
  Proof.
    induction its as [|[l|i] r IH]; intros j k b is pre M ER ND HP HN EN.
    - injection M as <-. rewrite (HN eq_refl). reflexivity.
    - assert (ENr : exists i q, r = q ++ [Ins i]).
      { destruct EN as [[i [q E]]|E]; [|discriminate]. destruct q as [|z q]; [discriminate|]. injection E as _ ->. eauto. }
      assert (RN : r = [] -> true = false) by (destruct ENr as [i [q ->]]; destruct q; discriminate).
      change (stream j (Lab l :: r)) with (stream (S j) r) in M. simpl in ER. destruct b.
      + rewrite (IH _ k true is pre M ER ND); auto.
      + assert (AL : assq k (map swap rel) = Some l).
        { apply assq_swap; auto. rewrite ER. apply in_or_app. right. simpl. auto. }
        rewrite (IH _ k true is (pre ++ [(l, k)]) M); auto.
        * rewrite AL. reflexivity.
        * rewrite ER, <- app_assoc. reflexivity.
        * intros l' p I. split; [|discriminate]. apply in_app_iff in I. destruct I as [I|[[= _ <-]|[]]]; auto. apply HP in I. lia.
    - change (stream j (Ins i :: r)) with ((j, Ins (C := code) i) :: stream (S j) r) in M. simpl in M. unfold write_one at 1 in M. simpl in M.
      destruct (retarget (fun l => assq l rel) Some i) as [i'|] eqn:RI; [|discriminate].
      destruct (map_opt write_one (stream (S j) r)) as [is'|] eqn:M'; [|discriminate]. injection M as <-.
      simpl in ER. cbn [instrs_loop].
      rewrite (retarget_inverse _ (fun p => assq p (map swap rel)) _ _ RI).
      2:{ intros t t' E. apply assq_swap; auto. apply assq_In. exact E. }
      rewrite (IH _ (S k) false is' pre M' ER ND); auto.
      + simpl. destruct b; [reflexivity|].
        rewrite assq_swap_none; [reflexivity|]. rewrite ER, map_app, in_app_iff. intros [I|I].
        * apply in_map_iff in I. destruct I as [[l p] [E I]]. apply HP in I. simpl in E. destruct I as [_ I]. specialize (I eq_refl). lia.
        * apply in_map_iff in I. destruct I as [[l p] [E I]]. apply lead_pos_bounds in I. simpl in E. lia.
      + intros l p I. apply HP in I. split; [lia|intros; lia].
      + destruct EN as [[i0 [q E]]|E]; [|discriminate]. destruct q as [|z q]; [right|left; injection E as _ ->; eauto].
        injection E as _ ->. reflexivity.
  Qed.
End List.


(** C48.  [P'] is the resolved instruction sequence; the code object lists it
    back, except that of several labels in a row only the first one, the one all
    jumps refer to after resolution, is kept. *)
Theorem C48_listing_inverts_writing :
  forall T (P : list (item nat)) P' reloc ar c,
    assembled P -> resolve_refs T P = Some (P', reloc) -> write_code P' reloc ar = Some c ->
    code_to_instrs c = Some (squash false P') /\ arity_of c = ar.
Proof.
  intros T P P' reloc ar c [ND [B EN]] R W.
  destruct (resolve_reloc _ _ _ _ R ND) as [lm [M [HR HL]]].
  assert (B' := begins_map _ _ _ _ M B). assert (EN' := next_ends _ _ _ _ M EN).
  destruct (write_spec _ _ _ _ W B') as [HA [HRel HI]]. split; [|exact HA].
  assert (REL : reloc_of c = lead_pos 0 false P').
  { rewrite HRel, HR. rewrite <- (leads_map _ _ _ _ 0 false M).
    destruct EN' as [i [q EQ]]. exact (new_reloc_leads P' [] false (ex_intro _ i (ex_intro _ q EQ))). }
  unfold code_to_instrs. rewrite inv_reloc_app.
  - simpl app. rewrite (listing (reloc_of c) P' 0 0 false (instrs_of c) []); auto.
    + rewrite REL. apply lead_pos_NoDup.
    + intros l p [].
  - rewrite REL. apply lead_pos_NoDup.
  - intros. reflexivity.
Qed.

(** Without labels in a row, the listing is the sequence itself. *)
Fixpoint lonely_labels {C} (its : list (item C)) : Prop :=
  match its with
  | Lab _ :: ((Lab _ :: _) as r) => False
  | _ :: r => lonely_labels r
  | [] => True
  end.

Lemma squash_lonely {C} (its : list (item C)) : lonely_labels its -> squash false its = its.
Proof.
  assert (G : forall n (its : list (item C)), List.length its <= n -> lonely_labels its -> squash false its = its).
  { induction n as [|n IH]; intros [|[l|i] r] LE L; simpl in LE; try lia; auto.
    - destruct r as [|[l'|i] q]; [reflexivity|destruct L|]. simpl. f_equal. f_equal. apply IH; [simpl in LE; lia|exact L].
    - simpl. f_equal. apply IH; [lia|exact L]. }
  apply (G (List.length its)). auto.
Qed.

Theorem C48_listing_exact :
  forall T (P : list (item nat)) P' reloc ar c,
    assembled P -> resolve_refs T P = Some (P', reloc) -> write_code P' reloc ar = Some c -> lonely_labels P' ->
    code_to_instrs c = Some P'.
Proof.
  intros T P P' reloc ar c A R W L. destruct (C48_listing_inverts_writing _ _ _ _ _ _ A R W) as [-> _].
  rewrite squash_lonely; auto.
Qed.

(** C28 for one list of items: writing succeeds whenever the labels jumped to are
    there, and every jump lands on the first instruction after the occurrence of
    its label, inside the code object. *)
Theorem C28_writing_succeeds :
  forall T (P : list (item nat)) ar,
    assembled P -> refs_ok T P -> exists P' reloc c, resolve_refs T P = Some (P', reloc) /\ write_code P' reloc ar = Some c.
Proof. intros T P ar [ND [B EN]] RO. apply writes; auto. Qed.

Theorem C28_jumps_land_after_their_label :
  forall T (P : list (item nat)) P' reloc ar c,
    assembled P -> resolve_refs T P = Some (P', reloc) -> write_code P' reloc ar = Some c ->
    forall pre i post, P = pre ++ Ins i :: post ->
      exists i', nth_error (instrs_of c) (ninstr pre) = Some i' /\
        forall l, target i = Some l ->
          exists pre' post', P = pre' ++ Lab l :: post' /\ target i' = Some (ninstr pre') /\
                             ninstr pre' < List.length (instrs_of c).
Proof.
  intros T P P' reloc ar c [ND [B EN]] R W pre i post E.
  destruct (written_at _ _ _ _ _ _ R W ND B EN) as [LEN [_ H]].
  destruct (H _ _ _ E) as [i' [N RT]]. exists i'. split; [exact N|]. intros l TL.
  assert (X := retarget_target _ _ _ _ RT). rewrite TL in X. destruct X as [t' [X1 X2]].
  destruct (labpos_split _ _ _ _ X1) as [pre' [post' [EQ [-> _]]]]. exists pre', post'. split; [auto|]. split; [exact X2|].
  rewrite LEN. destruct EN as [i0 [q EQ2]]. rewrite EQ in EQ2.
  destruct (exists_last (l := Lab (C := nat) l :: post')) as [m [z EZ]]; [discriminate|].
  rewrite EZ in EQ2. rewrite app_assoc in EQ2. apply app_inj_tail in EQ2. destruct EQ2 as [_ ->].
  rewrite EQ, EZ, !ninstr_app. simpl. lia.
Qed.

(** A loop with a run of two labels. *)
Definition ex_items : list (item nat) :=
  [Ins (Imov Rres Rac); Ins (Ibranchne 1 7); Lab 3; Ins (Iget_arg Rres 0); Ins (Ibranchf 3); Ins (Isave_cc 8); Ins Iapply;
   Lab 7; Lab 8; Ins Ido_arity_error].
Example ex_items_assembled : assembled ex_items /\ refs_ok [] ex_items.
Proof.
  split; [split; [|split]|].
  - repeat constructor; simpl; intuition discriminate.
  - red. eexists _, _. reflexivity.
  - exists Ido_arity_error. eexists (firstn 9 ex_items). reflexivity.
  - intros i I. simpl in I. decompose [or] I; try discriminate; try contradiction;
      match goal with H : Ins _ = Ins _ |- _ => injection H as <- end; simpl; split; intros; try discriminate;
      match goal with H : Some _ = Some _ |- _ => injection H as <- end; simpl; tauto.
Qed.
Example ex_items_listing :
  match resolve_refs [] ex_items with
  | Some (P', reloc) =>
      match write_code P' reloc (AFix 1) with
      | Some c => code_to_instrs c =
                    Some [Ins (Imov Rres Rac); Ins (Ibranchne 1 7); Lab 3; Ins (Iget_arg Rres 0); Ins (Ibranchf 3);
                          Ins (Isave_cc 7); Ins Iapply; Lab 7; Ins Ido_arity_error] /\
                  nth_error (instrs_of c) 4 = Some (Isave_cc 6)
      | None => False
      end
  | None => False
  end.
Proof. vm_compute. auto. Qed.

Print Assumptions C48_listing_inverts_writing.
Print Assumptions C48_listing_exact.
Print Assumptions C28_writing_succeeds.
Print Assumptions C28_jumps_land_after_their_label.
