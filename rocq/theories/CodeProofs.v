(** Lemmas about the resolution of labels and the writing of code
    (src/core/c/jitcommon.c:165-221, src/core/c/jit.c:16-147). *)
From Coq Require Import ZArith NArith Bool Ascii String List Arith Lia.
From Verif Require Import Base Heap Ast Code.
Import ListNotations.
Local Open Scope list_scope.

(** ** Specification *)

(** The number of instructions in a list of items. *)
Fixpoint ninstr {C} (its : list (item C)) : nat :=
  match its with
  | [] => 0
  | Lab _ :: r => ninstr r
  | Ins _ :: r => S (ninstr r)
  end.
(** The labels of a list of items. *)
Fixpoint labs {C} (its : list (item C)) : list nat :=
  match its with
  | [] => []
  | Lab l :: r => l :: labs r
  | Ins _ :: r => labs r
  end.
(** The jump target of an instruction. *)
Definition target {T C} (i : instr T C) : option T :=
  match i with
  | Isave_cc t | Ibrancha t | Ibranchf t | Ibranchgt _ t | Ibranchlt _ t | Ibranchne _ t => Some t
  | _ => None
  end.
(** Labels are unique and the list begins and ends with instructions. *)
Definition begins_ins {C} (its : list (item C)) : Prop := exists i r, its = Ins i :: r.
Definition ends_ins {C} (its : list (item C)) : Prop := exists i r, its = r ++ [Ins i].

(** The position of the first instruction after a label. *)
Fixpoint labpos {C} (k : nat) (its : list (item C)) (l : nat) : option nat :=
  match its with
  | [] => None
  | Lab l' :: r => if Nat.eqb l' l then Some k else labpos k r l
  | Ins _ :: r => labpos (S k) r l
  end.

(** Only the first label of a run of labels. *)
Fixpoint squash {C} (lead : bool) (its : list (item C)) : list (item C) :=
  match its with
  | [] => []
  | Ins i :: r => Ins i :: squash false r
  | Lab l :: r => if lead then squash true r else Lab l :: squash true r
  end.

(** A list of instructions and labels as the compiler makes them: distinct
    labels, instructions at both ends. *)
Definition assembled {C} (its : list (item C)) : Prop := NoDup (labs its) /\ begins_ins its /\ ends_ins its.

(** ** Lemmas *)
Lemma ninstr_app {C} (a b : list (item C)) : ninstr (a ++ b) = ninstr a + ninstr b.
Proof. induction a as [|[l|i] r IH]; simpl; lia. Qed.
Lemma labs_app {C} (a b : list (item C)) : labs (a ++ b) = labs a ++ labs b.
Proof. induction a as [|[l|i] r IH]; simpl; auto. rewrite IH. auto. Qed.

Lemma labpos_app {C} (pre : list (item C)) l post k :
  ~ In l (labs pre) -> labpos k (pre ++ Lab l :: post) l = Some (k + ninstr pre).
Proof.
  revert k. induction pre as [|[l'|i] r IH]; intros k N; simpl in *.
  - rewrite Nat.eqb_refl. f_equal. lia.
  - destruct (Nat.eqb_spec l' l); [exfalso; auto|]. apply IH. auto.
  - rewrite IH by auto. f_equal. lia.
Qed.

Lemma labpos_split {C} (its : list (item C)) l k p :
  labpos k its l = Some p -> exists pre post, its = pre ++ Lab l :: post /\ p = k + ninstr pre /\ ~ In l (labs pre).
Proof.
  revert k. induction its as [|[l'|i] r IH]; intros k E; simpl in E; [discriminate| |].
  - destruct (Nat.eqb_spec l' l) as [->|D].
    + injection E as <-. exists [], r. simpl. repeat split; auto.
    + destruct (IH _ E) as [pre [post [-> [-> N]]]]. exists (Lab l' :: pre), post. simpl. repeat split; auto.
      intros [H|H]; auto.
  - destruct (IH _ E) as [pre [post [-> [-> N]]]]. exists (Ins i :: pre), post. simpl. repeat split; auto; lia.
Qed.

Lemma labpos_In {C} (its : list (item C)) l k : In l (labs its) -> labpos k its l <> None.
Proof.
  revert k. induction its as [|[l'|i] r IH]; intros k I; simpl in *; [destruct I| |]; auto.
  destruct (Nat.eqb_spec l' l); [discriminate|]. apply IH. destruct I; auto. congruence.
Qed.

Lemma map_opt_nth {A B} (f : A -> option B) l l' n a :
  map_opt f l = Some l' -> nth_error l n = Some a -> exists b, f a = Some b /\ nth_error l' n = Some b.
Proof.
  revert l' n. induction l as [|x r IH]; intros l' n E N; [destruct n; discriminate|].
  simpl in E. destruct (f x) as [b|] eqn:F; [|discriminate]. destruct (map_opt f r) as [s|] eqn:M; [|discriminate].
  injection E as <-. destruct n as [|n]; simpl in N |- *.
  - injection N as <-. eauto.
  - eauto.
Qed.

Lemma map_opt_length {A B} (f : A -> option B) l l' : map_opt f l = Some l' -> List.length l' = List.length l.
Proof.
  revert l'. induction l as [|x r IH]; intros l' E; simpl in E; [injection E as <-; auto|].
  destruct (f x); [|discriminate]. destruct (map_opt f r); [|discriminate]. injection E as <-. simpl. f_equal. auto.
Qed.

Lemma map_opt_total {A B} (f : A -> option B) l :
  (forall a, In a l -> f a <> None) -> exists l', map_opt f l = Some l'.
Proof.
  induction l as [|x r IH]; intros H; simpl; [eauto|].
  destruct (f x) as [b|] eqn:F; [|destruct (H x (or_introl eq_refl) F)].
  destruct IH as [s ->]; [intros; apply H; simpl; auto|]. eauto.
Qed.

Lemma map_opt_app {A B} (f : A -> option B) l1 l2 :
  map_opt f (l1 ++ l2) = match map_opt f l1, map_opt f l2 with Some a, Some b => Some (a ++ b) | _, _ => None end.
Proof.
  induction l1 as [|x r IH]; simpl; [destruct (map_opt f l2); auto|].
  rewrite IH. destruct (f x); auto. destruct (map_opt f r); auto. destruct (map_opt f l2); auto.
Qed.

Lemma map_opt_items {C C'} f g (its : list (item C)) (its' : list (item C')) :
  map_opt (item_map f g) its = Some its' -> labs its' = labs its /\ ninstr its' = ninstr its.
Proof.
  revert its'. induction its as [|[l|i] r IH]; intros its' E; simpl in E.
  - injection E as <-. auto.
  - destruct (map_opt (item_map f g) r) as [s|] eqn:M; [|discriminate]. injection E as <-.
    destruct (IH _ eq_refl) as [IH1 IH2]. simpl. rewrite IH1, IH2. auto.
  - destruct (retarget f g i) as [b|]; [|discriminate]. simpl in E.
    destruct (map_opt (item_map f g) r) as [s|] eqn:M; [|discriminate]. injection E as <-.
    destruct (IH _ eq_refl) as [IH1 IH2]. simpl. auto.
Qed.

Lemma begins_map {C C'} f g (its : list (item C)) (its' : list (item C')) :
  map_opt (item_map f g) its = Some its' -> begins_ins its -> begins_ins its'.
Proof.
  intros E [i [r ->]]. simpl in E. destruct (retarget f g i) as [b|]; [|discriminate]. simpl in E.
  destruct (map_opt (item_map f g) r) as [s|]; [|discriminate]. injection E as <-. red. eauto.
Qed.

Lemma retarget_target {T T' C C'} (f : T -> option T') (g : C -> option C') i i' :
  retarget f g i = Some i' ->
  match target i with Some t => exists t', f t = Some t' /\ target i' = Some t' | None => target i' = None end.
Proof.
  destruct i; simpl; intros H; try (injection H as <-; reflexivity).
  all: try (destruct (f t) as [t'|] eqn:E; simpl in H; [injection H as <-; eauto|discriminate]).
  destruct (g c); simpl in H; [injection H as <-; reflexivity|discriminate].
Qed.

Lemma retarget_comp {T T' T'' C C'} (f : T -> option T') (f' : T' -> option T'') (g : C -> option C') i i1 i2 :
  retarget f g i = Some i1 -> retarget f' Some i1 = Some i2 ->
  retarget (fun t => match f t with Some t' => f' t' | None => None end) g i = Some i2.
Proof.
  destruct i; simpl; intros H1 H2;
    try (injection H1 as <-; exact H2);
    try (destruct (f t) as [t'|] eqn:E; simpl in H1; [injection H1 as <-; exact H2|discriminate]).
  destruct (g c); simpl in H1; [injection H1 as <-; exact H2|discriminate].
Qed.

Lemma retarget_ext {T T' C C'} (f f' : T -> option T') (g g' : C -> option C') i :
  (forall t, target i = Some t -> f t = f' t) -> (forall c n, i = Imake_closure c n -> g c = g' c) ->
  retarget f g i = retarget f' g' i.
Proof.
  intros Hf Hg. destruct i; simpl; auto; try (rewrite (Hf _ eq_refl); reflexivity).
  rewrite (Hg _ _ eq_refl). reflexivity.
Qed.

Lemma retarget_id {T C} (i : instr T C) : retarget Some Some i = Some i.
Proof. destruct i; reflexivity. Qed.

(** assq_set on a new key appends. *)
Lemma assq_set_new {B} k (b : B) l : assq k l = None -> assq_set k b l = l ++ [(k, b)].
Proof.
  induction l as [|[a c] r IH]; simpl; auto. destruct (Nat.eqb a k); [discriminate|]. intros. rewrite IH; auto.
Qed.
Lemma assq_app {B} k (l1 l2 : list (nat * B)) :
  assq k (l1 ++ l2) = match assq k l1 with Some b => Some b | None => assq k l2 end.
Proof. induction l1 as [|[a b] r IH]; simpl; auto. destruct (Nat.eqb a k); auto. Qed.
Lemma assq_set_same {B} k (b : B) l : assq k (assq_set k b l) = Some b.
Proof.
  induction l as [|[a c] r IH]; simpl; [rewrite Nat.eqb_refl; auto|].
  destruct (Nat.eqb a k) eqn:E; simpl; rewrite E; auto.
Qed.
Lemma assq_set_other {B} k j (b : B) l : j <> k -> assq j (assq_set k b l) = assq j l.
Proof.
  intros N. induction l as [|[a c] r IH]; simpl.
  - destruct (Nat.eqb_spec k j); congruence.
  - destruct (Nat.eqb_spec a k); simpl; [subst; destruct (Nat.eqb_spec k j); congruence|]. rewrite IH. auto.
Qed.

(** The leading labels with the index of the instruction that follows. *)
Fixpoint leads {C} (k : nat) (lead : bool) (its : list (item C)) : list (nat * nat) :=
  match its with
  | [] => []
  | Ins _ :: r => leads (S k) false r
  | Lab l :: r => if lead then leads (S k) true r
                  else match next_non_label (S k) r with
                       | Some j => (l, j) :: leads (S k) true r
                       | None => []
                       end
  end.
Fixpoint lead_of {C} (lead : option nat) (its : list (item C)) (l : nat) : option nat :=
  match its with
  | [] => None
  | Ins _ :: r => lead_of None r l
  | Lab l' :: r => let ld := match lead with Some x => x | None => l' end in
                   if Nat.eqb l' l then Some ld else lead_of (Some ld) r l
  end.
Definition isSome {A} (o : option A) : bool := match o with Some _ => true | None => false end.

Lemma label_maps_spec {C} (its : list (item C)) : forall k lead reloc lm reloc' lm',
  label_maps k lead its reloc lm = Some (reloc', lm') ->
  NoDup (labs its) -> (forall l, In l (labs its) -> assq l reloc = None) ->
  reloc' = reloc ++ leads k (isSome lead) its /\
  forall l, assq l lm' = match lead_of lead its l with Some x => Some x | None => assq l lm end.
Proof.
  induction its as [|[l|i] r IH]; intros k lead reloc lm reloc' lm' E ND NK; simpl in *.
  - injection E as <- <-. rewrite app_nil_r. auto.
  - inversion ND as [|? ? NI ND']; subst. destruct lead as [l0|]; simpl.
    + destruct (IH _ _ _ _ _ _ E) as [H1 H2]; auto. split; [exact H1|].
      intros x. rewrite H2. destruct (Nat.eqb_spec l x) as [->|D].
      * replace (lead_of (Some l0) r x) with (@None nat); [apply assq_set_same|].
        symmetry. clear - NI. revert NI. generalize (Some l0). induction r as [|[y|i] q IHr]; simpl; intros o NI; auto.
        destruct (Nat.eqb_spec y x); [exfalso; auto|]. apply IHr. auto.
      * destruct (lead_of (Some l0) r x); auto. apply assq_set_other. auto.
    + destruct (next_non_label (S k) r) as [j|] eqn:EN; [|discriminate].
      destruct (IH _ _ _ _ _ _ E) as [H1 H2]; auto.
      { intros x I. rewrite assq_set_other; auto. intros ->. auto. }
      split.
      * rewrite H1, assq_set_new by auto. rewrite <- app_assoc. reflexivity.
      * intros x. rewrite H2. destruct (Nat.eqb_spec l x) as [->|D].
        -- replace (lead_of (Some x) r x) with (@None nat); [apply assq_set_same|].
           symmetry. clear - NI. revert NI. generalize (Some x). induction r as [|[y|i] q IHr]; simpl; intros o NI; auto.
           destruct (Nat.eqb_spec y x); [exfalso; auto|]. apply IHr. auto.
        -- destruct (lead_of (Some l) r x); auto. apply assq_set_other. auto.
  - exact (IH _ _ _ _ _ _ E ND NK).
Qed.

Lemma next_non_label_some {C} (its : list (item C)) k i r : next_non_label k (its ++ Ins i :: r) <> None.
Proof. revert k. induction its as [|[l|j] q IH]; intros k; simpl; auto; discriminate. Qed.

Lemma label_maps_total {C} (its : list (item C)) : forall k lead reloc lm i q,
  its = q ++ [Ins i] -> exists x, label_maps k lead its reloc lm = Some x.
Proof.
  induction its as [|[l|j] r IH]; intros k lead reloc lm i q E.
  - destruct q; discriminate.
  - destruct q as [|z q]; [discriminate|]. injection E as <- ->. simpl.
    destruct lead; [eapply IH; eauto|].
    destruct (next_non_label (S k) (q ++ [Ins i])) eqn:N; [|destruct (next_non_label_some q (S k) i [] N)].
    eapply IH; eauto.
  - simpl. destruct q as [|z q].
    + injection E as -> ->. simpl. eauto.
    + injection E as <- ->. eapply IH; eauto.
Qed.

(** Positions. *)
Fixpoint lead_pos {C} (k : nat) (lead : bool) (its : list (item C)) : list (nat * nat) :=
  match its with
  | [] => []
  | Ins _ :: r => lead_pos (S k) false r
  | Lab l :: r => if lead then lead_pos k true r else (l, k) :: lead_pos k true r
  end.

Lemma number_length {A} (l : list A) k : List.length (number k l) = List.length l.
Proof. revert k. induction l; simpl; auto. Qed.

(** Instructions with their identities, after the labels are removed. *)
Definition stream {C} (k : nat) (its : list (item C)) := filter is_ins (number k its).

Lemma remove_labels_stream {C} (its : list (item C)) : begins_ins its -> remove_labels (number 0 its) = stream 0 its.
Proof. intros [i [r ->]]. reflexivity. Qed.

Lemma stream_length {C} (its : list (item C)) k : List.length (stream k its) = ninstr its.
Proof.
  revert k. unfold stream. induction its as [|[l|i] r IH]; intros k; simpl; auto.
Qed.

Lemma stream_ids {C} (its : list (item C)) k x : In x (stream k its) -> k <= fst x < k + List.length its.
Proof.
  revert k. unfold stream. induction its as [|[l|i] r IH]; intros k I; simpl in I; [destruct I| |].
  - apply IH in I. simpl. lia.
  - destruct I as [<-|I]; simpl; [lia|]. apply IH in I. lia.
Qed.

Lemma find_id_app {C} (l1 l2 : list (nat * item C)) id k :
  (forall x, In x l1 -> fst x <> id) -> find_id id k (l1 ++ l2) = find_id id (k + List.length l1) l2.
Proof.
  revert k. induction l1 as [|[j it] r IH]; intros k H; simpl; [f_equal; lia|].
  destruct (Nat.eqb_spec j id) as [->|N]; [destruct (H (id, it)); simpl; auto|].
  rewrite IH; [f_equal; lia|]. intros. apply H. simpl. auto.
Qed.

Lemma stream_app {C} (a b : list (item C)) k : stream k (a ++ b) = stream k a ++ stream (k + List.length a) b.
Proof.
  revert k. induction a as [|[l|i] r IH]; intros k; simpl.
  - rewrite Nat.add_0_r. reflexivity.
  - unfold stream in *. simpl. rewrite IH. f_equal. f_equal. f_equal. lia.
  - unfold stream in *. simpl. rewrite IH. f_equal. f_equal. f_equal. f_equal. lia.
Qed.

Lemma next_find {C} (r : list (item C)) : forall k j n (l1 : list (nat * item C)),
  next_non_label k r = Some j -> (forall x, In x l1 -> fst x < k) ->
  find_id j n (l1 ++ stream k r) = Some (n + List.length l1).
Proof.
  induction r as [|[l|i] q IH]; intros k j n l1 E H; simpl in E; [discriminate| |].
  - unfold stream. simpl. apply (IH (S k)); auto. intros x I. apply H in I. lia.
  - injection E as <-. rewrite find_id_app by (intros x I; apply H in I; lia).
    unfold stream. simpl. rewrite Nat.eqb_refl. reflexivity.
Qed.

Lemma new_reloc_leads {C} (its : list (item C)) : forall (pre : list (item C)) lead,
  (exists i q, its = q ++ [Ins i]) ->
  new_reloc (leads (List.length pre) lead its) (stream 0 (pre ++ its)) = lead_pos (ninstr pre) lead its.
Proof.
  induction its as [|[l|i] r IH]; intros pre lead [i0 [q E]].
  - reflexivity.
  - destruct q as [|z q]; [discriminate|]. injection E as <- ->.
    assert (P : forall b, new_reloc (leads (S (List.length pre)) b (q ++ [Ins i0])) (stream 0 (pre ++ Lab l :: q ++ [Ins i0]))
                  = lead_pos (ninstr pre) b (q ++ [Ins i0])).
    { intros b. specialize (IH (pre ++ [Lab l]) b). rewrite <- app_assoc in IH. cbn [app] in IH.
      rewrite app_length, ninstr_app in IH. cbn [List.length ninstr] in IH. rewrite Nat.add_0_r, Nat.add_1_r in IH.
      apply IH. eauto. }
    cbn [leads lead_pos]. destruct lead; [apply P|].
    destruct (next_non_label (S (List.length pre)) (q ++ [Ins i0])) as [j|] eqn:EN;
      [|destruct (next_non_label_some q (S (List.length pre)) i0 [] EN)].
    cbn [new_reloc].
    replace (find_id j 0 (stream 0 (pre ++ Lab l :: q ++ [Ins i0]))) with (Some (ninstr pre)).
    { rewrite P. reflexivity. }
    symmetry. rewrite stream_app. cbn [Nat.add].
    change (stream (List.length pre) (Lab l :: q ++ [Ins i0])) with (stream (S (List.length pre)) (q ++ [Ins i0])).
    rewrite (next_find _ (S (List.length pre))); auto.
    + rewrite stream_length. reflexivity.
    + intros x I. apply stream_ids in I. lia.
  - cbn [leads lead_pos]. destruct q as [|z q].
    + injection E as -> ->. reflexivity.
    + injection E as <- ->. specialize (IH (pre ++ [Ins i]) false). rewrite <- app_assoc in IH. cbn [app] in IH.
      rewrite app_length, ninstr_app in IH. cbn [List.length ninstr] in IH. rewrite !Nat.add_1_r in IH. apply IH. eauto.
Qed.

Lemma lead_pos_labs {C} (its : list (item C)) : forall k b l, In l (map fst (lead_pos k b its)) -> In l (labs its).
Proof.
  induction its as [|[l'|i] r IH]; intros k b l; simpl; auto; [|apply IH].
  destruct b; simpl; [intros H; right; eapply IH; eauto|]. intros [->|H]; auto. right. eapply IH; eauto.
Qed.

Lemma assq_None {B} k (l : list (nat * B)) : ~ In k (map fst l) -> assq k l = None.
Proof.
  induction l as [|[a b] r IH]; simpl; auto. intros N. destruct (Nat.eqb_spec a k); [exfalso; auto|]. auto.
Qed.

Lemma lead_of_labs {C} (its : list (item C)) : forall lead l l0, lead_of lead its l = Some l0 -> In l (labs its).
Proof.
  induction its as [|[y|i] q IHr]; simpl; intros o l l0 E; [discriminate| |eauto].
  destruct (Nat.eqb_spec y l); auto. right. eapply IHr; eauto.
Qed.

Lemma lead_labpos {C} (its : list (item C)) : forall k lead l l0,
  NoDup (labs its) -> lead_of lead its l = Some l0 ->
  match lead with
  | None => assq l0 (lead_pos k false its) = labpos k its l
  | Some ld => ~ In ld (labs its) ->
               (l0 = ld /\ labpos k its l = Some k) \/ assq l0 (lead_pos k true its) = labpos k its l
  end.
Proof.
  induction its as [|[l'|i] r IH]; intros k lead l l0 ND E; simpl in E; [discriminate| |].
  - inversion ND as [|? ? NI ND']; subst. destruct lead as [ld|].
    + intros N. simpl in *. destruct (Nat.eqb_spec l' l) as [->|D].
      * injection E as <-. auto.
      * specialize (IH k _ _ _ ND' E). simpl in IH. apply IH. auto.
    + simpl in *. destruct (Nat.eqb_spec l' l) as [->|D].
      * injection E as <-. rewrite Nat.eqb_refl. reflexivity.
      * specialize (IH k _ _ _ ND' E). simpl in IH. destruct (IH NI) as [[-> P]|P].
        -- rewrite Nat.eqb_refl, P. reflexivity.
        -- destruct (Nat.eqb_spec l' l0) as [<-|D'].
           ++ rewrite assq_None in P; [|intros X; apply lead_pos_labs in X; auto].
              exfalso. assert (IL : In l (labs r)).
              { eapply lead_of_labs; eauto. }
              apply (labpos_In r l k) in IL. congruence.
           ++ exact P.
  - simpl in E. simpl. destruct lead as [ld|].
    + intros N. right. apply (IH (S k) None l l0 ND E).
    + apply (IH (S k) None l l0 ND E).
Qed.

Lemma lead_of_In {C} (its : list (item C)) : forall lead l, In l (labs its) -> lead_of lead its l <> None.
Proof.
  induction its as [|[l'|i] r IH]; intros lead l I; simpl in *; [destruct I| |apply IH; auto].
  destruct (Nat.eqb_spec l' l); [discriminate|]. apply IH. destruct I; auto. congruence.
Qed.
Lemma stream_nth {C} (pre : list (item C)) i post k :
  nth_error (stream k (pre ++ Ins i :: post)) (ninstr pre) = Some (k + List.length pre, Ins i).
Proof.
  rewrite stream_app. rewrite nth_error_app2; rewrite stream_length; auto.
  rewrite Nat.sub_diag. reflexivity.
Qed.

Lemma next_ends {C C'} f g (its : list (item C)) (its' : list (item C')) :
  map_opt (item_map f g) its = Some its' -> ends_ins its -> ends_ins its'.
Proof.
  intros E [i [q ->]]. rewrite map_opt_app in E.
  destruct (map_opt (item_map f g) q) as [a|]; [|discriminate]. cbn [map_opt item_map] in E.
  destruct (retarget f g i) as [b|]; [|discriminate]. simpl in E. injection E as <-. red. eauto.
Qed.

Lemma lead_pos_map {C C'} f g (its : list (item C)) (its' : list (item C')) : forall k b,
  map_opt (item_map f g) its = Some its' -> lead_pos k b its' = lead_pos k b its.
Proof.
  revert its'. induction its as [|[l|i] r IH]; intros its' k b E; simpl in E.
  - injection E as <-. reflexivity.
  - destruct (map_opt (item_map f g) r) as [s|] eqn:M; [|discriminate]. injection E as <-. simpl.
    rewrite !(IH _ _ _ eq_refl). reflexivity.
  - destruct (retarget f g i); [|discriminate]. simpl in E.
    destruct (map_opt (item_map f g) r) as [s|] eqn:M; [|discriminate]. injection E as <-. simpl.
    apply (IH _ _ _ eq_refl).
Qed.

Lemma leads_map {C C'} f g (its : list (item C)) (its' : list (item C')) : forall k b,
  map_opt (item_map f g) its = Some its' -> leads k b its' = leads k b its.
Proof.
  assert (N : forall (its : list (item C)) (its' : list (item C')) k, map_opt (item_map f g) its = Some its' ->
              next_non_label k its' = next_non_label k its).
  { clear. induction its as [|[l|i] r IH]; intros its' k E; simpl in E.
    - injection E as <-. reflexivity.
    - destruct (map_opt (item_map f g) r) as [s|] eqn:M; [|discriminate]. injection E as <-. simpl. auto.
    - destruct (retarget f g i); [|discriminate]. simpl in E.
      destruct (map_opt (item_map f g) r) as [s|] eqn:M; [|discriminate]. injection E as <-. reflexivity. }
  revert its'. induction its as [|[l|i] r IH]; intros its' k b E; simpl in E.
  - injection E as <-. reflexivity.
  - destruct (map_opt (item_map f g) r) as [s|] eqn:M; [|discriminate]. injection E as <-. simpl.
    rewrite (N _ _ _ M), !(IH _ _ _ eq_refl). reflexivity.
  - destruct (retarget f g i); [|discriminate]. simpl in E.
    destruct (map_opt (item_map f g) r) as [s|] eqn:M; [|discriminate]. injection E as <-. simpl.
    apply (IH _ _ _ eq_refl).
Qed.

(** What resolution followed by writing produces. *)
Lemma resolve_reloc T P P' reloc :
  resolve_refs T P = Some (P', reloc) -> NoDup (labs P) ->
  exists lm, map_opt (item_map (fun l => assq l lm) (template T)) P = Some P' /\
             reloc = leads 0 false P /\ forall l, assq l lm = lead_of None P l.
Proof.
  unfold resolve_refs. intros R ND. destruct (label_maps 0 None P [] []) as [[rl lm]|] eqn:LM; [|discriminate].
  destruct (map_opt (item_map (fun l => assq l lm) (template T)) P) as [x|] eqn:M; [|discriminate].
  injection R as <- <-. destruct (label_maps_spec _ _ _ _ _ _ _ LM ND) as [H1 H2]; [reflexivity|].
  exists lm. split; [auto|]. split; [exact H1|]. intros l. rewrite H2. destruct (lead_of None P l); auto.
Qed.

Lemma write_spec its reloc ar c :
  write_code its reloc ar = Some c -> begins_ins its ->
  arity_of c = ar /\ reloc_of c = new_reloc reloc (stream 0 its) /\
  map_opt (fun it => match snd it with
                     | Ins i => retarget (fun l => assq l (reloc_of c)) Some i
                     | Lab _ => None
                     end) (stream 0 its) = Some (instrs_of c).
Proof.
  unfold write_code. intros W B. rewrite remove_labels_stream in W by auto.
  destruct (map_opt _ (stream 0 its)) as [is|] eqn:M in W; [|discriminate]. injection W as <-. simpl. auto.
Qed.

Theorem written_at T P P' reloc ar c :
  resolve_refs T P = Some (P', reloc) -> write_code P' reloc ar = Some c ->
  NoDup (labs P) -> begins_ins P -> ends_ins P ->
  List.length (instrs_of c) = ninstr P /\ arity_of c = ar /\
  forall pre i post, P = pre ++ Ins i :: post ->
    exists i', nth_error (instrs_of c) (ninstr pre) = Some i' /\ retarget (labpos 0 P) (template T) i = Some i'.
Proof.
  intros R W ND B EN. destruct (resolve_reloc _ _ _ _ R ND) as [lm [M [HR HL]]].
  assert (B' := begins_map _ _ _ _ M B). assert (EN' := next_ends _ _ _ _ M EN).
  destruct (write_spec _ _ _ _ W B') as [HA [HRel HI]].
  assert (REL : reloc_of c = lead_pos 0 false P).
  { rewrite HRel, HR. rewrite <- (leads_map _ _ _ _ 0 false M).
    destruct EN' as [i [q EQ]]. assert (NR := new_reloc_leads P' [] false (ex_intro _ i (ex_intro _ q EQ))).
    cbn [ninstr app List.length] in NR. rewrite NR. apply (lead_pos_map _ _ _ _ 0 false M). }
  split; [|split; [exact HA|]].
  - rewrite (map_opt_length _ _ _ HI), stream_length. apply (map_opt_items _ _ _ _ M).
  - intros pre i post ->. rewrite map_opt_app in M.
    destruct (map_opt (item_map (fun l => assq l lm) (template T)) pre) as [pre'|] eqn:M1; [|discriminate].
    cbn [map_opt item_map] in M. destruct (retarget (fun l => assq l lm) (template T) i) as [i1|] eqn:RI; [|discriminate].
    cbn [option_map] in M. destruct (map_opt (item_map (fun l => assq l lm) (template T)) post) as [post'|] eqn:M2; [|discriminate].
    injection M as <-.
    assert (SN := stream_nth pre' i1 post' 0).
    destruct (map_opt_nth _ _ _ _ _ HI SN) as [i2 [R2 N2]]. cbn [snd] in R2.
    destruct (map_opt_items _ _ _ _ M1) as [_ NI]. rewrite NI in N2.
    exists i2. split; [exact N2|].
    assert (RC := retarget_comp _ _ _ _ _ _ RI R2). rewrite <- RC.
    apply retarget_ext; auto. intros t Ht. cbv beta. rewrite HL, REL.
    assert (RT := retarget_target _ _ _ _ RI). rewrite Ht in RT. destruct RT as [t' [RT _]]. cbv beta in RT.
    rewrite HL in RT. rewrite RT. symmetry. exact (lead_labpos _ 0 None t t' ND RT).
Qed.

(** Resolution and writing succeed. *)
Definition refs_ok (T : list code) (P : list (item nat)) : Prop :=
  forall i, In (Ins i) P ->
    (forall l, target i = Some l -> In l (labs P)) /\ (forall k n, i = Imake_closure k n -> k < List.length T).

Lemma retarget_some {T T' C C'} (f : T -> option T') (g : C -> option C') i :
  (forall t, target i = Some t -> f t <> None) -> (forall c n, i = Imake_closure c n -> g c <> None) ->
  retarget f g i <> None.
Proof.
  intros Hf Hg. destruct i; simpl; try discriminate;
    try (specialize (Hf _ eq_refl); destruct (f t); simpl; [discriminate|congruence]).
  specialize (Hg _ _ eq_refl). destruct (g c); simpl; [discriminate|congruence].
Qed.

Theorem writes T P ar :
  NoDup (labs P) -> begins_ins P -> ends_ins P -> refs_ok T P ->
  exists P' reloc c, resolve_refs T P = Some (P', reloc) /\ write_code P' reloc ar = Some c.
Proof.
  intros ND B EN RO. assert (EN0 := EN). destruct EN0 as [i0 [q0 EQ0]].
  destruct (label_maps_total P 0 None [] [] i0 q0 EQ0) as [[rl lm] LM].
  destruct (label_maps_spec _ _ _ _ _ _ _ LM ND) as [H1 H2]; [reflexivity|]. simpl in H1.
  destruct (map_opt_total (item_map (fun l => assq l lm) (template T)) P) as [P' M].
  { intros [l|i] I; simpl; [discriminate|]. destruct (RO i I) as [R1 R2].
    assert (X : retarget (fun l : nat => assq l lm) (template T) i <> None).
    { apply retarget_some.
      - intros t Ht. rewrite H2. apply R1 in Ht. apply (lead_of_In P None) in Ht. destruct (lead_of None P t); [discriminate|contradiction].
      - intros c n E. apply R2 in E. unfold template. apply nth_error_Some. rewrite rev_length. exact E. }
    destruct (retarget (fun l : nat => assq l lm) (template T) i); [discriminate|congruence]. }
  assert (RR : resolve_refs T P = Some (P', rl)) by (unfold resolve_refs; rewrite LM, M; reflexivity).
  assert (B' := begins_map _ _ _ _ M B). assert (EN' := next_ends _ _ _ _ M EN).
  assert (REL : new_reloc rl (stream 0 P') = lead_pos 0 false P).
  { rewrite H1. rewrite <- (leads_map _ _ _ _ 0 false M).
    destruct EN' as [i [q EQ]]. assert (NR := new_reloc_leads P' [] false (ex_intro _ i (ex_intro _ q EQ))).
    cbn [ninstr app List.length] in NR. rewrite NR. apply (lead_pos_map _ _ _ _ 0 false M). }
  exists P', rl. unfold write_code. rewrite remove_labels_stream by auto. rewrite REL.
  destruct (map_opt_total (fun it : nat * item code => match snd it with
                           | Ins i => retarget (fun l => assq l (lead_pos 0 false P)) Some i
                           | Lab _ => None
                           end) (stream 0 P')) as [is MI].
  { intros [k it] I. unfold stream in I. apply filter_In in I. destruct I as [I F]. destruct it as [l|i']; [discriminate|].
    simpl. apply retarget_some; [|discriminate].
    intros t Ht.
    assert (IP : In (Ins i') P').
    { clear - I. revert I. generalize 0. induction P' as [|z r IH]; simpl; intros n I; [destruct I|].
      destruct I as [[= _ ->]|I]; auto. right. eapply IH; eauto. }
    apply In_nth_error in IP. destruct IP as [n IP].
    assert (NL := map_opt_length _ _ _ M).
    destruct (nth_error P n) as [it|] eqn:NP.
    2:{ apply nth_error_None in NP. assert (n < List.length P') by (apply nth_error_Some; congruence). lia. }
    destruct (map_opt_nth _ _ _ _ _ M NP) as [it' [IM IN]]. rewrite IP in IN. injection IN as <-.
    destruct it as [l|i]; [discriminate|]. simpl in IM.
    destruct (retarget (fun l : nat => assq l lm) (template T) i) as [i1|] eqn:RI; [|discriminate]. injection IM as ->.
    assert (RT := retarget_target _ _ _ _ RI). destruct (target i) as [t0|] eqn:T0; [|congruence].
    destruct RT as [t' [RT1 RT2]]. rewrite Ht in RT2. injection RT2 as <-.
    rewrite H2 in RT1. destruct (lead_of None P t0) as [ld|] eqn:LO; [|discriminate]. injection RT1 as ->.
    rewrite (lead_labpos _ 0 None t0 t ND LO). apply labpos_In. eapply lead_of_labs; eauto. }
  eexists. split; [exact RR|]. rewrite MI. reflexivity.
Qed.
