(** Specification vocabulary and proofs for the garbage collector. *)
From Coq Require Import ZArith NArith Bool Ascii String List Lia Permutation.
From Verif Require Import Base Hashtable HashtableProofs SymbolProofs Gc.
Import ListNotations.
Local Open Scope N_scope.
Local Open Scope list_scope.

(** ** Specification vocabulary *)

(** Block [b] holds a pointer to the start of block [c]: in some 8-byte word when
    it is scanned conservatively, never when it is atomic, and as reported by its
    marker otherwise. *)
Definition refers (E : genv) (m : N -> N) (b c : rec) : Prop :=
  match rmrk b with
  | Conservative => exists k, 8 * k + 8 <= rsize b /\ word m (rptr b + 8 * k) = rptr c
  | Atomic => False
  | Custom i => In (rptr c) (custom E i (bytes m (rptr b) (rsize b)) (rptr b))
  end.

(** Reachability from the registered roots and the scanned stack. *)
Inductive reach (E : genv) (m : N -> N) (bl : list rec) (stk : list N) : rec -> Prop :=
| reach_root b : In b bl -> rroot b = true -> reach E m bl stk b
| reach_stack b : In b bl -> In (rptr b) stk -> reach E m bl stk b
| reach_via b c : reach E m bl stk b -> In c bl -> refers E m b c -> reach E m bl stk c.

Fixpoint total (l : list rec) : N :=
  match l with [] => 0 | r :: t => rsize r + total t end.

(** What is assumed of the C library's allocator: the [n] bytes it returns lie in
    the address range considered by gc_mark_ptr and do not overlap the record or the
    contents of any block in use. *)
Definition room (E : genv) (g : gc) (n r : N) : Prop :=
  r + n <= two64 /\ lo E <= r + header <= hi E /\
  forall b, In b (blocks g) -> r + n <= rptr b - header \/ rptr b + rsize b <= r.
Record good_env (E : genv) : Prop := {
  ge_malloc : forall t g n r, malloc E t g n = Some r -> room E g n r;
  ge_realloc : forall t g p n r, realloc E t g p n = Some r -> room E g n r }.

(** Requests for which [size + sizeof(gc_record_t)] does not wrap around. *)
Definition op_ok (o : op) : Prop :=
  match o with
  | OAlloc size _ _ _ _ _ | ORealloc _ size _ _ _ _ _ => size + header < two64
  | OCalloc nmem size _ _ _ _ _ => (nmem * size) mod two64 + header < two64
  | _ => True
  end.

(** ** Layout *)
Definition apart (r s : rec) : Prop :=
  rptr r + rsize r <= rptr s - header \/ rptr s + rsize s <= rptr r - header.
Definition block_ok (E : genv) (r : rec) : Prop :=
  header <= rptr r /\ rptr r + rsize r <= two64 /\ lo E <= rptr r <= hi E.

Lemma apart_sym r s : apart r s -> apart s r.
Proof. unfold apart; tauto. Qed.

Lemma FOP_perm {A} (R : A -> A -> Prop) (sym : forall x y, R x y -> R y x) l l' :
  Permutation l l' -> ForallOrdPairs R l -> ForallOrdPairs R l'.
Proof.
  induction 1; intros F; auto.
  - inversion F; subst. constructor; auto. eapply Permutation_Forall; eauto.
  - inversion F as [|? ? F1 F2]; subst. inversion F2 as [|? ? F3 F4]; subst.
    inversion F1; subst. constructor; [constructor; auto|]. constructor; auto.
Qed.
Lemma FOP_filter {A} (R : A -> A -> Prop) f l : ForallOrdPairs R l -> ForallOrdPairs R (filter f l).
Proof.
  induction 1; simpl; [constructor|]. destruct (f a); auto. constructor; auto.
  rewrite Forall_forall in *. intros x Hx. apply filter_In in Hx as [Hx _]. auto.
Qed.
Lemma FOP_map {A} (R : A -> A -> Prop) (f : A -> A) l :
  (forall x y, R x y -> R (f x) (f y)) -> ForallOrdPairs R l -> ForallOrdPairs R (map f l).
Proof.
  intros HR. induction 1; simpl; constructor; auto.
  apply Forall_map. eapply Forall_impl; [|eauto]. auto.
Qed.
Lemma FOP_in {A} (R : A -> A -> Prop) (sym : forall x y, R x y -> R y x) l x y :
  ForallOrdPairs R l -> In x l -> In y l -> x = y \/ R x y.
Proof.
  induction 1 as [|a l F1 F2 IH]; intros Hx Hy; [destruct Hx|].
  rewrite Forall_forall in F1. destruct Hx as [->|Hx], Hy as [->|Hy]; auto.
Qed.

Lemma total_perm l l' : Permutation l l' -> total l = total l'.
Proof. induction 1; simpl; lia. Qed.
Lemma total_app l l' : total (l ++ l') = total l + total l'.
Proof. induction l; simpl; lia. Qed.
Lemma total_map f l : (forall r, rsize (f r) = rsize r) -> total (map f l) = total l.
Proof. intros H. induction l; simpl; auto. rewrite H; lia. Qed.
Lemma total_split f l : total l = total (filter f l) + total (filter (fun x => negb (f x)) l).
Proof. induction l; simpl; auto. destruct (f a); simpl; lia. Qed.
Lemma length_split {A} (f : A -> bool) l :
  length l = (length (filter f l) + length (filter (fun x => negb (f x)) l))%nat.
Proof. induction l; simpl; auto. destruct (f a); simpl; lia. Qed.

Lemma max_first (l : list rec) : l <> [] ->
  exists x l', Permutation l (x :: l') /\ forall y, In y l' -> rptr y <= rptr x.
Proof.
  induction l as [|a l IH]; [congruence|]. intros _. destruct l as [|b l].
  - exists a, []. split; auto. intros y [].
  - destruct IH as (x & l' & P & H); [congruence|].
    destruct (N.leb_spec (rptr a) (rptr x)).
    + exists x, (a :: l'). split; [rewrite P; apply perm_swap|]. intros y [<-|Hy]; auto.
    + exists a, (x :: l'). split; [rewrite P; auto|]. intros y [<-|Hy]; [lia|].
      specialize (H _ Hy). lia.
Qed.

(** Disjoint blocks with their records fit in the address space. *)
Lemma pack n : forall l B, length l = n -> ForallOrdPairs apart l ->
  Forall (fun r => header <= rptr r /\ rptr r + rsize r <= B) l ->
  total l + header * N.of_nat (length l) <= B.
Proof.
  induction n; intros l B Hl F G.
  - destruct l; [simpl; lia|discriminate].
  - destruct (max_first l) as (x & l' & P & H); [destruct l; [discriminate|congruence]|].
    rewrite (total_perm _ _ P), (Permutation_length P).
    assert (Hl' : length l' = n) by (apply Permutation_length in P; simpl in P; lia).
    apply (FOP_perm _ apart_sym _ _ P) in F. apply (Permutation_Forall P) in G.
    inversion F as [|? ? F1 F2]; subst. inversion G as [|? ? G1 G2]; subst.
    assert (X : total l' + header * N.of_nat (length l') <= rptr x - header).
    { apply IHn; auto. rewrite Forall_forall in *. intros y Hy.
      specialize (H _ Hy). specialize (F1 _ Hy). specialize (G2 _ Hy). unfold apart, header in *. lia. }
    cbn [total length]. unfold header in *. lia.
Qed.

(** ** Buckets *)
Lemma hidx_lt p a : (0 < a)%nat -> (hidx p a < a)%nat.
Proof. intros H. unfold hidx. pose proof (N.mod_lt (N.shiftr p 3) (N.of_nat a)). lia. Qed.

Lemma gsizes_pos n a : nth_error gc_sizes n = Some a -> 13 <= a.
Proof.
  assert (G : forallb (fun a => 13 <=? a) gc_sizes = true) by reflexivity.
  intros H. rewrite forallb_forall in G. apply N.leb_le, G. eapply nth_error_In; eauto.
Qed.

Definition placed (bs : list (list rec)) : Prop :=
  forall i r, In r (nth i bs []) -> hidx (rptr r) (length bs) = i.

Lemma in_concat_nth {A} (x : A) ls : In x (concat ls) -> exists i, (i < length ls)%nat /\ In x (nth i ls []).
Proof.
  intros H. apply in_concat in H as (l & H1 & H2). apply (In_nth _ _ []) in H1 as (i & H1 & <-). eauto.
Qed.
Lemma placed_in bs r : placed bs -> In r (concat bs) -> In r (nth (hidx (rptr r) (length bs)) bs []).
Proof. intros P H. apply in_concat_nth in H as (i & _ & H). rewrite (P _ _ H). auto. Qed.

Lemma insert_length r bs : length (insert_record r bs) = length bs.
Proof. apply upd_length. Qed.
Lemma insert_perm r bs : (0 < length bs)%nat -> Permutation (concat (insert_record r bs)) (r :: concat bs).
Proof.
  intros H. unfold insert_record. pose proof (hidx_lt (rptr r) _ H) as Hi. revert Hi.
  generalize (hidx (rptr r) (length bs)). clear H.
  induction bs as [|c t IH]; intros [|i] H; simpl in *; try lia.
  - reflexivity.
  - rewrite (IH i) by lia. symmetry; apply Permutation_middle.
Qed.
Lemma insert_placed r bs : (0 < length bs)%nat -> placed bs -> placed (insert_record r bs).
Proof.
  intros H P i x. unfold insert_record. rewrite upd_length.
  pose proof (hidx_lt (rptr r) _ H) as Hi.
  destruct (Nat.eq_dec (hidx (rptr r) (length bs)) i) as [<-|Hn].
  - rewrite nth_upd_eq' by auto. intros [<-|Hx]; auto.
  - rewrite nth_upd_ne' by auto. apply P.
Qed.
Lemma concat_repeat_nil' n : concat (repeat (@nil rec) n) = [].
Proof. induction n; simpl; auto. Qed.
Lemma placed_repeat n : placed (repeat [] n).
Proof.
  intros i r H. apply in_nth_concat in H. rewrite concat_repeat_nil' in H. destruct H.
Qed.
Lemma fold_insert l : forall bs, (0 < length bs)%nat -> placed bs ->
  let bs' := fold_left (fun acc r => insert_record r acc) l bs in
  length bs' = length bs /\ placed bs' /\ Permutation (concat bs') (l ++ concat bs).
Proof.
  induction l as [|r l IH]; intros bs H P; simpl; [auto|].
  destruct (IH (insert_record r bs)) as (A & B & C).
  { rewrite insert_length; auto. } { apply insert_placed; auto. }
  rewrite insert_length in A. split; auto. split; auto.
  rewrite C, insert_perm by auto. symmetry. apply Permutation_middle.
Qed.
Lemma resize_ok g n a : nth_error gc_sizes n = Some a ->
  exists bs, gc_resize g n = Some (mkgc bs n (gsize g) (allocs g) (dirty g) (collecting g) (mem g)) /\
    length bs = N.to_nat a /\ placed bs /\ Permutation (concat bs) (blocks g).
Proof.
  intros H. unfold gc_resize, move_bucket. rewrite H. pose proof (gsizes_pos _ _ H).
  destruct (fold_insert (concat (buckets g)) (repeat [] (N.to_nat a))) as (A & B & C).
  { rewrite repeat_length. lia. } { apply placed_repeat. }
  rewrite repeat_length in A. rewrite concat_repeat_nil', app_nil_r in C.
  eexists. split; [reflexivity|]. auto.
Qed.

(** ** The invariant *)
Record wf (E : genv) (g : gc) : Prop := {
  wf_len : exists a, nth_error gc_sizes (ap g) = Some a /\ length (buckets g) = N.to_nat a;
  wf_place : placed (buckets g);
  wf_apart : ForallOrdPairs apart (blocks g);
  wf_addr : Forall (block_ok E) (blocks g);
  wf_size : gsize g = N.of_nat (length (blocks g));
  wf_allocs : allocs g = total (blocks g);
  wf_marks : Forall (fun r => rmark r = false) (blocks g) }.

Lemma wf_pos E g : wf E g -> (0 < length (buckets g))%nat.
Proof. intros W. destruct (wf_len _ _ W) as (a & H & ->). apply gsizes_pos in H. lia. Qed.
Lemma wf_pack E g : wf E g -> total (blocks g) + header * N.of_nat (length (blocks g)) <= two64.
Proof.
  intros W. eapply pack; [reflexivity|apply W|].
  eapply Forall_impl; [|apply W]. intros r (A & B & C). auto.
Qed.

Lemma wf_perm E g bs n a : wf E g -> nth_error gc_sizes n = Some a -> length bs = N.to_nat a ->
  placed bs -> Permutation (concat bs) (blocks g) -> forall d c m,
  wf E (mkgc bs n (gsize g) (allocs g) d c m).
Proof.
  intros W Hn Hl P Pm d c m. constructor; unfold blocks; cbn [buckets ap gsize allocs].
  - eauto.
  - auto.
  - eapply FOP_perm; [apply apart_sym|symmetry; exact Pm|apply W].
  - eapply Permutation_Forall; [symmetry; exact Pm|apply W].
  - rewrite (Permutation_length Pm). apply W.
  - rewrite (total_perm _ _ Pm). apply W.
  - eapply Permutation_Forall; [symmetry; exact Pm|apply W].
Qed.
Lemma wf_irrel E g d c m : wf E g -> wf E (mkgc (buckets g) (ap g) (gsize g) (allocs g) d c m).
Proof. intros [A B C D F G H]. constructor; auto. Qed.

Lemma in_apart E g x y : wf E g -> In x (blocks g) -> In y (blocks g) -> x = y \/ apart x y.
Proof. intros W. apply FOP_in; [apply apart_sym|apply W]. Qed.
Lemma in_ok E g x : wf E g -> In x (blocks g) -> block_ok E x.
Proof. intros W H. pose proof (wf_addr _ _ W) as F. rewrite Forall_forall in F. auto. Qed.
Lemma in_mark E g x : wf E g -> In x (blocks g) -> rmark x = false.
Proof. intros W H. pose proof (wf_marks _ _ W) as F. rewrite Forall_forall in F. auto. Qed.
Lemma in_uniq E g x y : wf E g -> In x (blocks g) -> In y (blocks g) -> rptr x = rptr y -> x = y.
Proof.
  intros W Hx Hy Hp. destruct (in_apart _ _ _ _ W Hx Hy) as [|A]; auto.
  destruct (in_ok _ _ _ W Hx) as (A1 & _). destruct (in_ok _ _ _ W Hy) as (A2 & _).
  unfold apart, header in *. lia.
Qed.

Lemma find_rec_in bs p r : find_rec bs p = Some r -> In r (concat bs) /\ rptr r = p.
Proof.
  unfold find_rec. intros H. apply find_some in H as [H1 H2]. apply N.eqb_eq in H2.
  split; auto. eapply in_nth_concat; eauto.
Qed.
Lemma find_rec_none bs p : placed bs -> find_rec bs p = None -> forall r, In r (concat bs) -> rptr r <> p.
Proof.
  intros P H r Hr Hp. apply (placed_in _ _ P) in Hr. rewrite Hp in Hr.
  unfold find_rec in H. apply (find_none _ _ H) in Hr. apply N.eqb_neq in Hr. auto.
Qed.
Lemma find_rec_some E g r : wf E g -> In r (blocks g) -> find_rec (buckets g) (rptr r) = Some r.
Proof.
  intros W H. destruct (find_rec (buckets g) (rptr r)) as [x|] eqn:F.
  - apply find_rec_in in F as [F1 F2]. f_equal. eapply in_uniq; eauto.
  - exfalso. eapply find_rec_none; eauto. apply W.
Qed.

(** ** Marking *)
Definition setm (f : N -> bool) (r : rec) : rec := if f (rptr r) then with_mark true r else r.
Definition mmap (f : N -> bool) (bs : list (list rec)) : list (list rec) := map (map (setm f)) bs.

Lemma setm_ptr f r : rptr (setm f r) = rptr r.
Proof. unfold setm. destruct (f (rptr r)); auto. Qed.
Lemma setm_root f r : rroot (setm f r) = rroot r.
Proof. unfold setm. destruct (f (rptr r)); auto. Qed.
Lemma setm_points f r E m : points_to E m (setm f r) = points_to E m r.
Proof. unfold setm. destruct (f (rptr r)); auto. Qed.
Lemma mmap_false bs : mmap (fun _ => false) bs = bs.
Proof.
  unfold mmap, setm. rewrite <- (map_id bs) at 2. apply map_ext. intros l. cbv iota. apply map_id.
Qed.
Lemma upd_mmap f p bs : upd_rec p (with_mark true) (mmap f bs) = mmap (fun q => f q || (q =? p)) bs.
Proof.
  unfold upd_rec, mmap. rewrite map_map. apply map_ext. intros l. rewrite map_map. apply map_ext.
  intros r. rewrite setm_ptr. unfold setm. destruct (N.eqb_spec (rptr r) p), (f (rptr r)); auto.
Qed.
Lemma find_mmap f bs p : find_rec (mmap f bs) p = option_map (setm f) (find_rec bs p).
Proof.
  unfold find_rec, mmap. rewrite map_length.
  change (@nil rec) with (map (setm f) []) at 1. rewrite map_nth.
  induction (nth (hidx p (length bs)) bs []) as [|r t IH]; simpl; auto.
  rewrite setm_ptr. destruct (rptr r =? p); auto.
Qed.

Lemma refers_points E m b c : refers E m b c <-> In (rptr c) (points_to E m b).
Proof.
  unfold refers, points_to. destruct (rmrk b); cbn [In]; try tauto.
  rewrite in_map_iff. split.
  - intros (k & A & B). exists (N.to_nat k). rewrite N2Nat.id. split; auto.
    apply in_seq. split; [lia|]. cbn [Nat.add].
    assert (k + 1 <= rsize b / 8) by (apply N.div_le_lower_bound; lia). lia.
  - intros (k & A & B). apply in_seq in B. exists (N.of_nat k). split; auto.
    assert (8 * (rsize b / 8) <= rsize b) by (apply N.mul_div_le; lia). lia.
Qed.

Lemma filter_le {A} (f f' : A -> bool) l : (forall x, f' x = true -> f x = true) ->
  (length (filter f' l) <= length (filter f l))%nat.
Proof.
  intros H. induction l as [|x l IH]; simpl; auto. destruct (f' x) eqn:X.
  - rewrite (H _ X). simpl; lia.
  - destruct (f x); simpl; lia.
Qed.
Lemma filter_lt {A} (f f' : A -> bool) l y : (forall x, f' x = true -> f x = true) ->
  In y l -> f' y = false -> f y = true -> (length (filter f' l) < length (filter f l))%nat.
Proof.
  intros H. induction l as [|x l IH]; intros Hy A1 A2; [destruct Hy|]. simpl. destruct Hy as [->|Hy].
  - rewrite A1, A2. simpl. pose proof (filter_le f f' l H). lia.
  - specialize (IH Hy A1 A2). destruct (f' x) eqn:X.
    + rewrite (H _ X). simpl; lia.
    + destruct (f x); simpl; lia.
Qed.

Section Mark.
Variable E : genv.
Variable g : gc.
Hypothesis W : wf E g.
Variable stk : list N.
Let bs0 := buckets g.
Let bl := blocks g.
Let m := mem g.
Let R := reach E m bl stk.

Definition unmarked (f : N -> bool) : nat := length (filter (fun r => negb (f (rptr r))) bl).
(** A pointer that needs no further marking. *)
Definition done (f : N -> bool) (q : N) : Prop := forall r, In r bl -> rptr r = q -> f q = true \/ rroot r = true.
Definition sub (f f' : N -> bool) : Prop := forall q, f q = true -> f' q = true.

Lemma done_sub f f' q : sub f f' -> done f q -> done f' q.
Proof. intros S D r Hr Hq. destruct (D r Hr Hq); auto. Qed.
Lemma unmarked_sub f f' : sub f f' -> (unmarked f' <= unmarked f)%nat.
Proof. intros S. apply filter_le. intros r H. apply negb_true_iff in H. apply negb_true_iff.
  destruct (f (rptr r)) eqn:X; auto. apply S in X. congruence. Qed.
Lemma unmarked_drop f f' r : sub f f' -> In r bl -> f (rptr r) = false -> f' (rptr r) = true ->
  (unmarked f' < unmarked f)%nat.
Proof.
  intros S Hr A B. apply (filter_lt _ _ bl r); auto; [|rewrite B; auto|rewrite A; auto].
  intros x H. apply negb_true_iff in H. apply negb_true_iff.
  destruct (f (rptr x)) eqn:X; auto. apply S in X. congruence.
Qed.

(** What a marking step does to the set of marked blocks. *)
Definition marks (f f' : N -> bool) (ps : list N) : Prop :=
  sub f f' /\
  (forall r, In r bl -> f' (rptr r) = true -> f (rptr r) = true \/ R r) /\
  (forall q, In q ps -> done f' q) /\
  (forall r, In r bl -> f' (rptr r) = true -> f (rptr r) = true \/
     forall q, In q (points_to E m r) -> done f' q).

Definition wanted (q : N) : Prop := forall r, In r bl -> rptr r = q -> R r.

Lemma marks_seq f1 f2 f3 ps qs : marks f1 f2 ps -> marks f2 f3 qs -> marks f1 f3 (ps ++ qs).
Proof.
  intros (A1 & A2 & A3 & A4) (B1 & B2 & B3 & B4). split; [|split; [|split]].
  - intros q Hq. auto.
  - intros r Hr Hf. destruct (B2 r Hr Hf) as [Hf2|]; auto.
  - intros q Hq. apply in_app_iff in Hq as [Hq|Hq]; auto. eapply done_sub; eauto.
  - intros r Hr Hf. destruct (B4 r Hr Hf) as [Hf2|]; auto.
    destruct (A4 r Hr Hf2) as [|X]; auto. right. intros q Hq. eapply done_sub; eauto.
Qed.

Lemma wanted_points r : In r bl -> R r -> forall q, In q (points_to E m r) -> wanted q.
Proof.
  intros Hr HR q Hq c Hc Hp. eapply reach_via; eauto. apply refers_points. rewrite Hp. auto.
Qed.

Lemma ofold_marks fuel :
  (forall f p, (unmarked f < fuel)%nat -> wanted p ->
     exists f', mark_ptr fuel E m (mmap f bs0) p = Some (mmap f' bs0) /\ marks f f' [p]) ->
  forall ps f, (unmarked f < fuel)%nat -> (forall p, In p ps -> wanted p) ->
    exists f', ofold (mark_ptr fuel E m) (mmap f bs0) ps = Some (mmap f' bs0) /\ marks f f' ps.
Proof.
  intros H ps. induction ps as [|p ps IH]; intros f Hu Hw; simpl.
  - exists f. split; auto. split; [intros q; auto|]. split; [auto|]. split; [intros q []|auto].
  - destruct (H f p Hu) as (f1 & A & B); [apply Hw; left; auto|]. rewrite A.
    destruct (IH f1) as (f2 & C & D).
    { pose proof (unmarked_sub f f1 (proj1 B)). lia. } { intros q Hq. apply Hw. right; auto. }
    exists f2. split; auto. apply (marks_seq _ _ _ _ _ B D).
Qed.

Lemma mark_ptr_ok fuel : forall f p, (unmarked f < fuel)%nat -> wanted p ->
  exists f', mark_ptr fuel E m (mmap f bs0) p = Some (mmap f' bs0) /\ marks f f' [p].
Proof.
  induction fuel as [|fuel IH]; intros f p Hu Hw; [lia|]. cbn [mark_ptr].
  assert (Stay : done f p -> marks f f [p]).
  { intros D. split; [intros q; auto|]. split; [auto|]. split; [|auto]. intros q [<-|[]]; auto. }
  destruct ((p <? lo E) || (hi E <? p)) eqn:Hr.
  { exists f. split; auto. apply Stay. intros r Hin Hp. exfalso.
    destruct (in_ok _ _ _ W Hin) as (_ & _ & C). rewrite Hp in C.
    apply orb_true_iff in Hr as [Hr|Hr]; apply N.ltb_lt in Hr; lia. }
  rewrite find_mmap. destruct (find_rec bs0 p) as [r|] eqn:F; cbn [option_map].
  2:{ exists f. split; auto. apply Stay. intros r Hin Hp. exfalso.
      eapply find_rec_none; eauto. apply W. }
  apply find_rec_in in F as [Hin Hp].
  assert (Hm : rmark (setm f r) = f p).
  { unfold setm. rewrite Hp. destruct (f p); auto. apply (in_mark _ _ _ W Hin). }
  rewrite Hm, setm_root, setm_points, upd_mmap.
  destruct (f p) eqn:Hf; cbn [orb].
  { exists f. split; auto. apply Stay. intros ? _ _. auto. }
  destruct (rroot r) eqn:Hroot.
  { exists f. split; auto. apply Stay. intros r' Hr' Hp'. right.
    rewrite (in_uniq _ _ _ _ W Hr' Hin); congruence. }
  set (f1 := fun q => f q || (q =? p)).
  assert (S1 : sub f f1) by (intros q Hq; unfold f1; rewrite Hq; auto).
  assert (F1 : f1 p = true) by (unfold f1; rewrite N.eqb_refl, orb_true_r; auto).
  assert (HR : R r) by (apply Hw; auto).
  destruct (ofold_marks fuel IH (points_to E m r) f1) as (f2 & A & B).
  { assert ((unmarked f1 < unmarked f)%nat); [|lia].
    apply (unmarked_drop f f1 r); auto; rewrite Hp; auto. }
  { apply wanted_points; auto. }
  rewrite A. exists f2. split; auto. destruct B as (B1 & B2 & B3 & B4).
  assert (Only : forall r', In r' bl -> f1 (rptr r') = true -> f (rptr r') = true \/ r' = r).
  { intros r' Hr' Hf1. unfold f1 in Hf1. apply orb_true_iff in Hf1 as [|Hf1]; auto.
    right. apply N.eqb_eq in Hf1. eapply in_uniq; eauto. congruence. }
  split; [intros q Hq; auto|]. split; [|split].
  - intros r' Hr' Hf'. destruct (B2 r' Hr' Hf') as [Hf1|]; auto.
    destruct (Only r' Hr' Hf1) as [ | -> ]; auto.
  - intros q [<-|[]] r' Hr' Hq. left. auto.
  - intros r' Hr' Hf'. destruct (B4 r' Hr' Hf') as [Hf1|]; auto.
    destruct (Only r' Hr' Hf1) as [ | -> ]; auto.
Qed.

Lemma unmarked_le f : (unmarked f <= length bl)%nat.
Proof. unfold unmarked. rewrite (length_split (fun r => negb (f (rptr r))) bl). lia. Qed.

Lemma marks_roots fuel : (length bl < fuel)%nat -> forall rs f, (forall r, In r rs -> In r bl /\ rroot r = true) ->
  (forall r, In r bl -> f (rptr r) = true -> forall q, In q (points_to E m r) -> done f q) ->
  (forall r, In r bl -> f (rptr r) = true -> R r) ->
  exists f', ofold (mark_root fuel E m) (mmap f bs0) rs = Some (mmap f' bs0) /\ sub f f' /\
    (forall r, In r rs -> f' (rptr r) = true) /\
    (forall r, In r bl -> f' (rptr r) = true -> forall q, In q (points_to E m r) -> done f' q) /\
    (forall r, In r bl -> f' (rptr r) = true -> R r).
Proof.
  intros Hfuel rs. induction rs as [|x rs IH]; intros f Hrs Hc Hs; cbn [ofold].
  - exists f. split; auto. split; [intros q; auto|]. split; [intros r []|]. auto.
  - unfold mark_root at 1. rewrite upd_mmap. destruct (Hrs x (or_introl eq_refl)) as [Hx Hroot].
    set (f1 := fun q => f q || (q =? rptr x)).
    assert (S1 : sub f f1) by (intros q Hq; unfold f1; rewrite Hq; auto).
    assert (HR : R x) by (apply reach_root; auto).
    destruct (ofold_marks fuel (mark_ptr_ok fuel) (points_to E m x) f1) as (f2 & A & B1 & B2 & B3 & B4).
    { pose proof (unmarked_le f1). lia. } { apply wanted_points; auto. }
    rewrite A.
    assert (Only : forall r', In r' bl -> f1 (rptr r') = true -> f (rptr r') = true \/ r' = x).
    { intros r' Hr' Hf1. unfold f1 in Hf1. apply orb_true_iff in Hf1 as [|Hf1]; auto.
      right. apply N.eqb_eq in Hf1. eapply in_uniq; eauto. }
    destruct (IH f2) as (f3 & C1 & C2 & C3 & C4 & C5).
    + intros r Hr. apply Hrs. right; auto.
    + intros r Hr Hf2 q Hq. destruct (B4 r Hr Hf2) as [Hf1|]; auto.
      destruct (Only r Hr Hf1) as [Hf| -> ]; auto. eapply done_sub; [exact B1|].
      eapply done_sub; [exact S1|]. eapply Hc; eauto.
    + intros r Hr Hf2. destruct (B2 r Hr Hf2) as [Hf1|]; auto.
      destruct (Only r Hr Hf1) as [ | -> ]; auto.
    + exists f3. split; auto. split; [intros q Hq; auto|]. split; auto.
      intros r [<-|Hr]; auto. apply C2, B1. unfold f1. rewrite N.eqb_refl, orb_true_r. auto.
Qed.

Lemma gc_mark_ok : exists f, gc_mark E g stk = Some (mmap f bs0) /\
  forall r, In r bl -> (f (rptr r) = true <-> R r).
Proof.
  unfold gc_mark. destruct (N.eqb_spec (gsize g) 0) as [Hz|Hz].
  { exists (fun _ => false). rewrite mmap_false. split; auto. intros r Hr.
    rewrite (wf_size _ _ W) in Hz. fold bl in Hz. destruct bl; [destruct Hr|discriminate]. }
  fold bs0 bl m.
  destruct (marks_roots (S (length bl)) (Nat.lt_succ_diag_r _) (filter rroot bl) (fun _ => false))
    as (f1 & A1 & A2 & A3 & A4 & A5); try (intros; discriminate).
  { intros r Hr. apply filter_In in Hr. auto. }
  rewrite mmap_false in A1. rewrite A1.
  destruct (ofold_marks (S (length bl)) (mark_ptr_ok _) stk f1) as (f2 & B & B1 & B2 & B3 & B4).
  { pose proof (unmarked_le f1). lia. }
  { intros p Hp r Hr Hrp. apply reach_stack; auto. rewrite Hrp; auto. }
  rewrite B. exists f2. split; auto.
  assert (Hroot : forall r, In r bl -> rroot r = true -> f2 (rptr r) = true).
  { intros r Hr Hro. apply B1, A3. apply filter_In; auto. }
  assert (Hdone : forall r, In r bl -> done f2 (rptr r) -> f2 (rptr r) = true).
  { intros r Hr D. destruct (D r Hr eq_refl); auto. }
  intros r Hr. split.
  - intros Hf. destruct (B2 r Hr Hf); auto.
  - intros HR. clear Hr. induction HR as [b Hb Hro|b Hb Hs|b c Hb IH Hc Href]; auto.
    apply Hdone; auto. apply refers_points in Href.
    assert (Hbin : In b bl) by (inversion Hb; auto).
    destruct (B4 b Hbin IH) as [Hf1|X]; auto. eapply done_sub; [exact B1|]. eapply A4; eauto.
Qed.
End Mark.

(** ** Sweeping *)
Lemma sub64_ok a b : b <= a -> a < two64 -> sub64 a b = a - b.
Proof.
  intros H1 H2. unfold sub64. rewrite (N.mod_small b) by lia.
  replace (a + two64 - b) with (a - b + 1 * two64) by lia.
  rewrite N.mod_add by (unfold two64; lia). apply N.mod_small. lia.
Qed.

Definition dropped (f : N -> bool) (l : list rec) : list rec := filter (fun r => negb (f (rptr r))) l.
Definition kept (f : N -> bool) (l : list rec) : list rec := filter (fun r => f (rptr r)) l.

Lemma sweep_fold E f l : forall al sz m ev, (forall r, In r l -> rmark r = false) ->
  total (dropped f l) <= al -> N.of_nat (length (dropped f l)) <= sz -> al < two64 -> sz < two64 ->
  fold_left (sweep_one E) (map (setm f) l) (al, sz, m, ev) =
  (al - total (dropped f l), sz - N.of_nat (length (dropped f l)),
   fold_left (fun m r => clobber E r m) (dropped f l) m, ev ++ concat (map free_events (dropped f l))).
Proof.
  induction l as [|r l IH]; intros al sz m ev Hm Ha Hs Ha' Hs'.
  - simpl. rewrite app_nil_r, !N.sub_0_r. reflexivity.
  - cbn [map fold_left]. unfold sweep_one at 2. unfold dropped in *. cbn [filter] in *.
    assert (Hr : setm f r = if f (rptr r) then with_mark true r else r) by reflexivity.
    rewrite Hr. destruct (f (rptr r)) eqn:Hf; cbn [negb] in *.
    + cbn [rmark with_mark]. rewrite IH; auto. intros x Hx. apply Hm. right; auto.
    + rewrite (Hm r) by (left; auto). cbn [total length] in *.
      rewrite IH; try (rewrite sub64_ok by lia); try lia.
      * rewrite sub64_ok by lia. cbn [fold_left map concat].
        rewrite app_assoc. f_equal; f_equal; f_equal; lia.
      * intros x Hx. apply Hm. right; auto.
Qed.

Lemma unmark_filter f bs : (forall r, In r (concat bs) -> rmark r = false) ->
  gc_unmark (map (filter rmark) (mmap f bs)) = map (kept f) bs.
Proof.
  intros H. unfold gc_unmark, mmap. rewrite !map_map. apply map_ext_in. intros l Hl.
  assert (Hm : forall r, In r l -> rmark r = false).
  { intros r Hr. apply H. apply in_concat. eauto. }
  clear H Hl. unfold kept. induction l as [|r l IH]; simpl; auto.
  assert (Hr : rmark (setm f r) = f (rptr r)).
  { unfold setm. destruct (f (rptr r)); auto. apply Hm; left; auto. }
  rewrite Hr. unfold setm at 1. destruct (f (rptr r)) eqn:Hf; simpl.
  - rewrite IH by (intros; apply Hm; right; auto). f_equal.
    pose proof (Hm r (or_introl eq_refl)) as Z. destruct r as [p s d k mk ro].
    cbn [rmark] in Z. subst mk. reflexivity.
  - apply IH. intros; apply Hm; right; auto.
Qed.
Lemma concat_filter {A} (f : A -> bool) bs : concat (map (filter f) bs) = filter f (concat bs).
Proof. induction bs; simpl; auto. rewrite filter_app, IHbs. reflexivity. Qed.

Lemma clobber_other E l : forall m a,
  (forall r, In r l -> ~ (rptr r - header <= a < rptr r + rsize r)) ->
  fold_left (fun m r => clobber E r m) l m a = m a.
Proof.
  induction l as [|r l IH]; intros m a H; simpl; auto.
  rewrite IH by (intros; apply H; right; auto). unfold clobber.
  destruct ((rptr r - header <=? a) && (a <? rptr r + rsize r)) eqn:Hb; auto.
  apply andb_true_iff in Hb as [H1 H2]. apply N.leb_le in H1. apply N.ltb_lt in H2.
  exfalso. apply (H r); [left; auto|lia].
Qed.

Lemma ideal_le n s : (ideal n s <= n)%nat.
Proof. induction n; simpl; auto. destruct (_ <? _); lia. Qed.

Lemma shrink_ok g a : nth_error gc_sizes (ap g) = Some a -> length (buckets g) = N.to_nat a -> placed (buckets g) ->
  exists bs n b, gc_shrink_if_needed g = Some (mkgc bs n (gsize g) (allocs g) (dirty g) (collecting g) (mem g)) /\
    nth_error gc_sizes n = Some b /\ length bs = N.to_nat b /\ placed bs /\ Permutation (concat bs) (blocks g).
Proof.
  intros Ha Hl P. unfold gc_shrink_if_needed. destruct (Nat.eqb_spec (ideal (ap g) (gsize g)) (ap g)).
  - exists (buckets g), (ap g), a. split; [destruct g; auto|]. auto.
  - assert (Hi : exists b, nth_error gc_sizes (ideal (ap g) (gsize g)) = Some b).
    { destruct (nth_error gc_sizes (ideal (ap g) (gsize g))) eqn:X; eauto. exfalso.
      apply nth_error_None in X. pose proof (ideal_le (ap g) (gsize g)).
      assert (ap g < length gc_sizes)%nat by (apply nth_error_Some; congruence). lia. }
    destruct Hi as (b & Hb). destruct (resize_ok g _ _ Hb) as (bs & A & B & C & D).
    exists bs, (ideal (ap g) (gsize g)), b. auto.
Qed.

Lemma concat_mmap f bs : concat (mmap f bs) = map (setm f) (concat bs).
Proof. unfold mmap. induction bs; simpl; auto. rewrite map_app, IHbs. reflexivity. Qed.
Lemma placed_sub (h : list rec -> list rec) bs : (forall l r, In r (h l) -> In r l) -> h [] = [] ->
  placed bs -> placed (map h bs).
Proof.
  intros H H0 P i r Hr. rewrite map_length. apply P. rewrite <- H0, map_nth in Hr. apply H. auto.
Qed.

(** The state of the collector after its counters have been set. *)
Lemma wf_kept E g f bs n a d c m : wf E g -> nth_error gc_sizes n = Some a -> length bs = N.to_nat a ->
  placed bs -> Permutation (concat bs) (kept f (blocks g)) ->
  wf E (mkgc bs n (gsize g - N.of_nat (length (dropped f (blocks g))))
          (allocs g - total (dropped f (blocks g))) d c m).
Proof.
  intros W Hn Hl P Pm. pose proof (total_split (fun r => f (rptr r)) (blocks g)) as T.
  pose proof (length_split (fun r => f (rptr r)) (blocks g)) as L.
  match goal with |- wf E ?x => assert (HB : blocks x = concat bs) by reflexivity end.
  constructor; rewrite ?HB; cbn [buckets ap gsize allocs].
  - eauto.
  - auto.
  - eapply FOP_perm; [apply apart_sym|symmetry; exact Pm|]. apply FOP_filter, W.
  - eapply Permutation_Forall; [symmetry; exact Pm|]. pose proof (wf_addr _ _ W) as F.
    rewrite Forall_forall in *. intros x Hx. apply filter_In in Hx as [Hx _]. auto.
  - rewrite (Permutation_length Pm), (wf_size _ _ W). unfold kept, dropped. lia.
  - rewrite (total_perm _ _ Pm), (wf_allocs _ _ W). unfold kept, dropped. lia.
  - eapply Permutation_Forall; [symmetry; exact Pm|]. pose proof (wf_marks _ _ W) as F.
    rewrite Forall_forall in *. intros x Hx. apply filter_In in Hx as [Hx _]. auto.
Qed.

Lemma bounds E g f : wf E g -> total (dropped f (blocks g)) <= allocs g /\
  N.of_nat (length (dropped f (blocks g))) <= gsize g /\ allocs g < two64 /\ gsize g < two64.
Proof.
  intros W. pose proof (total_split (fun r => f (rptr r)) (blocks g)).
  pose proof (length_split (fun r => f (rptr r)) (blocks g)).
  pose proof (wf_pack _ _ W) as P. rewrite (wf_size _ _ W), (wf_allocs _ _ W). unfold dropped, header in *.
  assert (two64 > 0) by (unfold two64; lia).
  destruct (blocks g); [cbn in *; lia|]. cbn [length] in *. lia.
Qed.

Lemma sweep_ok E g f : wf E g ->
  exists g', gc_sweep E (set_buckets g (mmap f (buckets g))) =
      Some (g', concat (map free_events (dropped f (blocks g)))) /\
    wf E g' /\ Permutation (blocks g') (kept f (blocks g)) /\ dirty g' = 0 /\ collecting g' = collecting g /\
    mem g' = fold_left (fun m r => clobber E r m) (dropped f (blocks g)) (mem g).
Proof.
  intros W. unfold gc_sweep, set_buckets. cbn [blocks buckets allocs gsize mem ap collecting].
  unfold blocks at 1. cbn [buckets]. rewrite concat_mmap. fold (blocks g).
  destruct (bounds E g f W) as (B1 & B2 & B3 & B4).
  rewrite sweep_fold; auto; [|intros r Hr; eapply in_mark; eauto].
  rewrite unmark_filter by (intros r Hr; eapply in_mark; eauto).
  destruct (wf_len _ _ W) as (a & Ha & Hl).
  match goal with |- context [gc_shrink_if_needed ?x] => set (g1 := x) end.
  destruct (shrink_ok g1 a) as (bs & n & b & A1 & A2 & A3 & A4 & A5); auto.
  { unfold g1. cbn [buckets]. rewrite map_length. auto. }
  { apply (placed_sub (kept f)); auto; [|apply W].
    intros l r Hr. apply filter_In in Hr. tauto. }
  rewrite A1. unfold g1 in *. cbn [gsize allocs dirty collecting mem] in *.
  assert (Pm : Permutation (concat bs) (kept f (blocks g))).
  { rewrite A5. unfold blocks at 1. cbn [buckets]. unfold kept. rewrite concat_filter. reflexivity. }
  eexists. split; [reflexivity|]. split; [eapply wf_kept; eauto|]. cbn. auto.
Qed.

Lemma collect_ok E g stk : wf E g ->
  exists g' f, gc_collect E g stk = Some (g', ECollect :: concat (map free_events (dropped f (blocks g)))) /\
    (forall r, In r (blocks g) -> (f (rptr r) = true <-> reach E (mem g) (blocks g) stk r)) /\
    wf E g' /\ Permutation (blocks g') (kept f (blocks g)) /\ dirty g' = 0 /\ collecting g' = collecting g /\
    mem g' = fold_left (fun m r => clobber E r m) (dropped f (blocks g)) (mem g).
Proof.
  intros W. unfold gc_collect. destruct (gc_mark_ok E g W stk) as (f & A & B). rewrite A.
  destruct (sweep_ok E g f W) as (g' & C & D). unfold set_buckets in C. rewrite C.
  exists g', f. auto.
Qed.

(** ** What a collection keeps and frees *)
Definition same_on (m m' : N -> N) (b : rec) : Prop :=
  forall a, rptr b <= a < rptr b + rsize b -> m' a = m a.

Lemma same_on_refl m b : same_on m m b.
Proof. intros a _; auto. Qed.
Lemma same_on_trans m1 m2 m3 b : same_on m1 m2 b -> same_on m2 m3 b -> same_on m1 m3 b.
Proof. intros A B a Ha. rewrite B, A; auto. Qed.
Lemma same_on_bytes m m' b : same_on m m' b <-> bytes m' (rptr b) (rsize b) = bytes m (rptr b) (rsize b).
Proof.
  unfold bytes. split.
  - intros S. apply map_ext_in. intros k Hk. apply in_seq in Hk. apply S. lia.
  - intros H a Ha.
    assert (X : In (N.to_nat (a - rptr b)) (seq 0 (N.to_nat (rsize b)))) by (apply in_seq; lia).
    apply (ext_in_map H) in X. cbv beta in X. rewrite N2Nat.id in X.
    replace (rptr b + (a - rptr b)) with a in X by lia. auto.
Qed.
Lemma same_on_refers E m m' b c : same_on m m' b -> refers E m b c -> refers E m' b c.
Proof.
  intros S. unfold refers. destruct (rmrk b); auto.
  - intros (k & A & B). exists k. split; auto. rewrite <- B. unfold word.
    rewrite !S by lia. reflexivity.
  - apply same_on_bytes in S. rewrite S. auto.
Qed.

Lemma reach_in E m bl stk b : reach E m bl stk b -> In b bl.
Proof. intros H; inversion H; auto. Qed.

Lemma reach_transfer E m bl stk m' bl' :
  (forall b, reach E m bl stk b -> In b bl' /\ same_on m m' b) ->
  forall b, reach E m bl stk b -> reach E m' bl' stk b.
Proof.
  intros H b Hb. induction Hb as [b Hb Hr|b Hb Hs|b c Hb IH Hc Href].
  - apply reach_root; auto. apply H. apply reach_root; auto.
  - apply reach_stack; auto. apply H. apply reach_stack; auto.
  - eapply reach_via; eauto.
    + apply H. eapply reach_via; eauto.
    + eapply same_on_refers; eauto. apply H; auto.
Qed.

Lemma clobbered_same E g f b : wf E g -> In b (blocks g) -> f (rptr b) = true ->
  same_on (mem g) (fold_left (fun m r => clobber E r m) (dropped f (blocks g)) (mem g)) b.
Proof.
  intros W Hb Hf a Ha. apply clobber_other. intros r Hr Hin. apply filter_In in Hr as [Hr Hn].
  destruct (in_apart _ _ _ _ W Hb Hr) as [->|A].
  - rewrite Hf in Hn. discriminate.
  - destruct (in_ok _ _ _ W Hb) as (B1 & _). destruct (in_ok _ _ _ W Hr) as (B2 & _).
    unfold apart, header in *. lia.
Qed.

Lemma in_kept g f b : In b (kept f (blocks g)) <-> In b (blocks g) /\ f (rptr b) = true.
Proof. apply filter_In. Qed.

(** [collected g g' stk ev]: a collection in state [g]. *)
Lemma coll_step E g stk g' ev : wf E g -> gc_collect E g stk = Some (g', ev) ->
  wf E g' /\ dirty g' = 0 /\ collecting g' = collecting g /\
  (forall b, In b (blocks g') <-> reach E (mem g) (blocks g) stk b) /\
  (forall b, In b (blocks g') -> same_on (mem g) (mem g') b) /\
  (exists f, (forall r, In r (blocks g) -> (f (rptr r) = true <-> reach E (mem g) (blocks g) stk r)) /\
     ev = ECollect :: concat (map free_events (dropped f (blocks g)))).
Proof.
  intros W H. destruct (collect_ok E g stk W) as (g1 & f & A & B & C & D & F & G & K).
  rewrite A in H. inversion H; subst g1 ev; clear H.
  split; [auto|]. split; [auto|]. split; [auto|].
  assert (X : forall b, In b (blocks g') <-> In b (blocks g) /\ f (rptr b) = true).
  { intros b. rewrite <- in_kept. split; apply Permutation_in; auto. symmetry; auto. }
  split; [|split; [|eauto]].
  - intros b. rewrite X. split; [intros [P Q]; apply B; auto|]. intros R. split; [eapply reach_in; eauto|].
    apply B; auto. eapply reach_in; eauto.
  - intros b Hb. apply X in Hb as [P Q]. rewrite K. apply clobbered_same; auto.
Qed.

(** A series of collections with the same stack. *)
Inductive colls (E : genv) (stk : list N) : gc -> gc -> list event -> Prop :=
| colls_nil g : colls E stk g g []
| colls_cons g g1 g2 ev1 ev2 : gc_collect E g stk = Some (g1, ev1) -> colls E stk g1 g2 ev2 ->
    colls E stk g g2 (ev1 ++ ev2).
Lemma colls_app E stk g1 g2 g3 e1 e2 : colls E stk g1 g2 e1 -> colls E stk g2 g3 e2 -> colls E stk g1 g3 (e1 ++ e2).
Proof. induction 1; simpl; auto. intros H2. rewrite <- app_assoc. econstructor; eauto. Qed.
Lemma colls_one E stk g g' ev : gc_collect E g stk = Some (g', ev) -> colls E stk g g' ev.
Proof. intros H. rewrite <- (app_nil_r ev). econstructor; eauto. constructor. Qed.

Lemma colls_ok E stk g g' ev : colls E stk g g' ev -> wf E g ->
  wf E g' /\ collecting g' = collecting g /\
  (forall b, In b (blocks g') -> In b (blocks g) /\ same_on (mem g) (mem g') b) /\
  (forall b, reach E (mem g) (blocks g) stk b -> reach E (mem g') (blocks g') stk b) /\
  (ev = [] /\ g' = g \/ In ECollect ev /\ dirty g' = 0 /\
     forall b, In b (blocks g') -> reach E (mem g) (blocks g) stk b).
Proof.
  induction 1 as [g|g g1 g2 e1 e2 H1 H2 IH]; intros W.
  - split; auto. split; auto. split; [intros; split; auto; apply same_on_refl|]. auto.
  - destruct (coll_step _ _ _ _ _ W H1) as (A1 & A2 & A3 & A4 & A5 & f & A6 & A7).
    destruct (IH A1) as (B1 & B2 & B3 & B4 & B5).
    split; auto. split; [congruence|]. split; [|split].
    + intros b Hb. destruct (B3 b Hb) as [C1 C2]. split; [apply A4 in C1; eapply reach_in; eauto|].
      eapply same_on_trans; eauto.
    + intros b Hb. apply B4. revert Hb. apply reach_transfer. intros c Hc. apply A4 in Hc.
      split; auto.
    + right. split; [subst e1; left; auto|]. split.
      * destruct B5 as [[_ ->]|(_ & ? & _)]; auto.
      * intros b Hb. apply A4. apply B3. auto.
Qed.

(** Which events a collection produces. *)
Lemma free_event_in p e l : In e (concat (map free_events l)) ->
  e = EFree p \/ (exists d, e = EFinal d p) -> exists r, In r l /\ rptr r = p.
Proof.
  intros H He. apply in_concat in H as (x & H1 & H2). apply in_map_iff in H1 as (r & <- & Hr).
  exists r. split; auto. unfold free_events in H2.
  destruct He as [->|(d & ->)]; destruct (rdtor r); simpl in H2;
    repeat match goal with H : _ \/ _ |- _ => destruct H end; try contradiction; congruence.
Qed.
Lemma colls_events E stk g g' ev : colls E stk g g' ev -> wf E g -> forall p e, In e ev ->
  e = EFree p \/ (exists d, e = EFinal d p) ->
  (exists b, In b (blocks g) /\ rptr b = p) /\ ~ (exists b, In b (blocks g') /\ rptr b = p).
Proof.
  induction 1 as [g|g g1 g2 e1 e2 H1 H2 IH]; intros W p e He Hp; [destruct He|].
  destruct (coll_step _ _ _ _ _ W H1) as (A1 & A2 & A3 & A4 & A5 & f & A6 & ->).
  destruct (colls_ok _ _ _ _ _ H2 A1) as (_ & _ & B3 & _).
  apply in_app_iff in He as [He|He].
  - destruct He as [<-|He]; [destruct Hp as [?|(? & ?)]; discriminate|].
    destruct (free_event_in p e _ He Hp) as (r & Hr & Hrp). apply filter_In in Hr as [Hr Hf].
    split; [eauto|]. intros (b & Hb & Hbp). apply B3 in Hb as [Hb _].
    assert (b = r) as -> by (eapply in_uniq; [exact W| | |congruence]; auto; apply A4 in Hb; eapply reach_in; eauto).
    apply A4, A6 in Hb; auto. rewrite Hb in Hf. discriminate.
  - destruct (IH A1 p e He Hp) as [(b & Hb & Hbp) C]. split; auto.
    exists b. split; auto. apply A4 in Hb. eapply reach_in; eauto.
Qed.

(** ** Adding and removing records *)
Lemma last_size n a : nth_error gc_sizes n = Some a -> nth_error gc_sizes (S n) = None ->
  a = 4611686018427388039.
Proof.
  intros H1 H2. apply nth_error_None in H2. assert (H3 : (n < length gc_sizes)%nat) by (apply nth_error_Some; congruence).
  change (length gc_sizes) with 50%nat in *. assert (n = 49%nat) as -> by lia.
  vm_compute in H1. congruence.
Qed.

Lemma expand_ok E g : wf E g -> exists g', gc_expand_if_needed g = Some g' /\ wf E g' /\
  Permutation (blocks g') (blocks g) /\ gsize g' = gsize g /\ allocs g' = allocs g /\
  dirty g' = dirty g /\ collecting g' = collecting g /\ mem g' = mem g.
Proof.
  intros W. unfold gc_expand_if_needed.
  destruct (N.ltb_spec (3 * N.of_nat (length (buckets g))) (4 * gsize g)) as [H|H].
  - destruct (wf_len _ _ W) as (a & Ha & Hl).
    destruct (nth_error gc_sizes (S (ap g))) as [b|] eqn:Hb.
    + destruct (resize_ok g _ _ Hb) as (bs & A & B & C & D). rewrite A. eexists. split; [reflexivity|].
      split; [eapply wf_perm; eauto|]. split; [exact D|]. cbn. repeat split.
    + exfalso. pose proof (last_size _ _ Ha Hb) as ->.
      pose proof (wf_pack _ _ W) as P. rewrite (wf_size _ _ W) in H. unfold header, two64 in P.
      rewrite Hl, N2Nat.id in H.
      change (2 ^ 64) with 18446744073709551616 in P. lia.
  - exists g. split; auto. split; auto. split; auto.
Qed.

Lemma add_ok E g r : wf E g -> block_ok E r -> rmark r = false ->
  (forall b, In b (blocks g) -> apart r b) ->
  exists g', gc_add_record g r = Some g' /\ wf E g' /\ Permutation (blocks g') (r :: blocks g) /\
    dirty g' = (dirty g + rsize r) mod two64 /\ collecting g' = collecting g /\ mem g' = mem g.
Proof.
  intros W0 Hok Hm Hap. unfold gc_add_record.
  destruct (expand_ok E g W0) as (g1 & -> & W & Pm & A1 & A2 & A3 & A4 & A5).
  rewrite A3, A4, A5. eexists. split; [reflexivity|].
  match goal with |- wf E ?x /\ _ => set (g2 := x) end.
  pose proof (wf_pos _ _ W) as Hpos.
  assert (P2 : Permutation (blocks g2) (r :: blocks g1)) by (apply insert_perm; auto).
  split; [|split; [rewrite P2, Pm; auto|cbn; auto]].
  assert (F : ForallOrdPairs apart (r :: blocks g1)).
  { constructor; [|apply W]. apply Forall_forall. intros b Hb. apply Hap. eapply Permutation_in; eauto. }
  assert (G : Forall (block_ok E) (r :: blocks g1)) by (constructor; [auto|apply W]).
  assert (PK : total (r :: blocks g1) + header * N.of_nat (length (r :: blocks g1)) <= two64).
  { eapply pack; [reflexivity|exact F|]. eapply Forall_impl; [|exact G]. intros x (X1 & X2 & _). auto. }
  cbn [total length] in PK. unfold header in PK.
  pose proof (wf_size _ _ W) as HS. pose proof (wf_allocs _ _ W) as HA.
  constructor.
  - destruct (wf_len _ _ W) as (a & Ha & Hl). exists a. cbn [g2 ap buckets]. rewrite insert_length. auto.
  - apply insert_placed; auto. apply W.
  - eapply FOP_perm; [apply apart_sym|symmetry; exact P2|]. auto.
  - eapply Permutation_Forall; [symmetry; exact P2|]. auto.
  - rewrite (Permutation_length P2). cbn [g2 gsize length]. rewrite N.mod_small; lia.
  - rewrite (total_perm _ _ P2). cbn [g2 allocs total]. rewrite N.mod_small; lia.
  - eapply Permutation_Forall; [symmetry; exact P2|]. constructor; auto. apply W.
Qed.

Lemma nodup_ptr E g : wf E g -> NoDup (map rptr (blocks g)).
Proof.
  intros W. pose proof (wf_apart _ _ W) as F. pose proof (wf_addr _ _ W) as G.
  induction F as [|r l F1 F2 IH]; simpl; constructor.
  - intros H. apply in_map_iff in H as (x & Hx & Hin). inversion G as [|? ? G1 G2]; subst.
    rewrite Forall_forall in *. specialize (F1 _ Hin). specialize (G2 _ Hin).
    destruct G1 as (G1 & _). destruct G2 as (G2 & _). unfold apart, header in *. lia.
  - apply IH. inversion G; auto.
Qed.

Lemma remove_chain_some b p b' r : remove_chain b p = Some (b', r) ->
  rptr r = p /\ (exists l2, b = r :: l2 /\ b' = l2 \/
    exists l1 pr, b = l1 ++ pr :: r :: l2 /\ b' = l1 ++ or_flags pr r :: l2).
Proof.
  revert b'. induction b as [|x t IH]; intros b' H; [discriminate|]. cbn [remove_chain] in H.
  destruct (N.eqb_spec (rptr x) p).
  - inversion H; subst. split; auto. eexists; left; auto.
  - destruct t as [|y t2]; [discriminate|]. destruct (N.eqb_spec (rptr y) p).
    + inversion H; subst. split; auto. exists t2. right. exists [], x. auto.
    + destruct (remove_chain (y :: t2) p) as [[t' z]|] eqn:E0; [|discriminate].
      inversion H; subst; clear H. destruct (IH _ eq_refl) as (A & l2 & [[B C]|(l1 & pr & B & C)]).
      * split; auto. injection B as -> ->. contradiction.
      * split; auto. exists l2. right. exists (x :: l1), pr. rewrite B, C. auto.
Qed.
Lemma remove_chain_none b p : remove_chain b p = None -> forall r, In r b -> rptr r <> p.
Proof.
  induction b as [|x t IH]; intros H r Hr; [destruct Hr|]. cbn [remove_chain] in H.
  destruct (N.eqb_spec (rptr x) p); [discriminate|].
  destruct t as [|y t2].
  - destruct Hr as [<-|[]]; auto.
  - destruct (N.eqb_spec (rptr y) p); [discriminate|].
    destruct (remove_chain (y :: t2) p) as [[t' z]|] eqn:E0; [discriminate|].
    destruct Hr as [<-|Hr]; auto.
Qed.

Lemma upd_split {A} i (bs : list (list A)) : (i < length bs)%nat ->
  exists rest, Permutation (concat bs) (nth i bs [] ++ rest) /\
    forall b, Permutation (concat (upd i b bs)) (b ++ rest).
Proof.
  revert i. induction bs as [|c t IH]; intros [|i] H; simpl in *; try lia.
  - exists (concat t). split; auto.
  - destruct (IH i) as (rest & PA & PB); [lia|]. exists (c ++ rest). split.
    + rewrite PA, !app_assoc. apply Permutation_app_tail, Permutation_app_comm.
    + intros b. rewrite PB, !app_assoc. apply Permutation_app_tail, Permutation_app_comm.
Qed.

(** The effect of removing [r]: the other blocks stay, except that the one before
    it in the bucket inherits its root flag. *)
Definition raise_root (q : option N) (r b : rec) : rec :=
  match q with
  | Some p => if (rptr b =? p) && rroot r then with_root true b else b
  | None => b
  end.
Definition others (p : N) (l : list rec) : list rec := filter (fun b => negb (rptr b =? p)) l.

Lemma raise_ptr q r b : rptr (raise_root q r b) = rptr b.
Proof. unfold raise_root. destruct q; auto. destruct (_ && _); auto. Qed.
Lemma raise_size q r b : rsize (raise_root q r b) = rsize b.
Proof. unfold raise_root. destruct q; auto. destruct (_ && _); auto. Qed.
Lemma raise_mark q r b : rmark (raise_root q r b) = rmark b.
Proof. unfold raise_root. destruct q; auto. destruct (_ && _); auto. Qed.
Lemma raise_id q r l : (forall b, In b l -> q <> Some (rptr b)) -> map (raise_root q r) l = l.
Proof.
  intros H. rewrite <- (map_id l) at 2. apply map_ext_in. intros b Hb. unfold raise_root.
  destruct q as [p|]; auto. destruct (N.eqb_spec (rptr b) p); auto. exfalso. apply (H b); congruence.
Qed.
Lemma filter_id {A} (f : A -> bool) l : (forall x, In x l -> f x = true) -> filter f l = l.
Proof. induction l; simpl; intros H; auto. rewrite H by (left; auto). f_equal. auto. Qed.

Lemma remove_some E g p : wf E g -> (exists b, In b (blocks g) /\ rptr b = p) ->
  exists g' r q, gc_remove g p = Some (g', r) /\ In r (blocks g) /\ rptr r = p /\ wf E g' /\
    Permutation (blocks g') (map (raise_root q r) (others p (blocks g))) /\
    dirty g' = dirty g /\ collecting g' = collecting g /\ mem g' = mem g /\ q <> Some p.
Proof.
  intros W (x & Hx & Hxp). unfold gc_remove.
  pose proof (placed_in _ _ (wf_place _ _ W) Hx) as Hx'. rewrite Hxp in Hx'.
  pose proof (hidx_lt p _ (wf_pos _ _ W)) as Hi.
  set (i := hidx p (length (buckets g))) in *.
  destruct (remove_chain (nth i (buckets g) []) p) as [[b' r]|] eqn:RC.
  2:{ exfalso. eapply remove_chain_none; eauto. }
  destruct (remove_chain_some _ _ _ _ RC) as (Hrp & l2 & Hcase).
  destruct (upd_split i (buckets g) Hi) as (rest & P1 & P2). fold (blocks g) in P1.
  assert (Hin : In r (blocks g)).
  { eapply Permutation_in; [symmetry; exact P1|]. apply in_app_iff. left.
    destruct Hcase as [[-> _]|(l1 & pr & -> & _)]; [left; auto|]. apply in_app_iff. right. right. left. auto. }
  pose proof (in_mark _ _ _ W Hin) as Hrm.
  pose proof (nodup_ptr _ _ W) as ND.
  assert (X : exists q, Permutation (b' ++ rest) (map (raise_root q r) (others p (blocks g))) /\ q <> Some p /\
    exists keep, Permutation (blocks g) (r :: keep) /\ (forall b, In b keep -> rptr b <> p)).
  { destruct Hcase as [[Hb ->]|(l1 & pr & Hb & ->)]; rewrite Hb in P1.
    - exists None. pose proof P1 as P1'. apply (Permutation_map rptr) in P1'.
      apply (Permutation_NoDup P1') in ND. simpl in ND. apply NoDup_cons_iff in ND as [ND _].
      assert (K : forall b, In b (l2 ++ rest) -> rptr b <> p).
      { intros b Hb' Hbp. apply ND. rewrite Hrp, <- Hbp. apply in_map; auto. }
      split; [|split; [discriminate|exists (l2 ++ rest); auto]].
      simpl. rewrite map_id. unfold others.
      assert (Y : Permutation (filter (fun b => negb (rptr b =? p)) (blocks g)) (filter (fun b => negb (rptr b =? p)) (r :: l2 ++ rest))).
      { clear - P1. simpl in P1. induction P1; simpl; auto.
        - destruct (negb _); auto.
        - destruct (negb (rptr x =? p)), (negb (rptr y =? p)); auto. constructor.
        - etransitivity; eauto. }
      rewrite Y. simpl. rewrite (proj2 (N.eqb_eq _ _) Hrp). simpl. rewrite filter_id; auto.
      intros b Hb'. apply negb_true_iff, N.eqb_neq. auto.
    - exists (Some (rptr pr)).
      assert (P3 : Permutation (blocks g) (r :: pr :: l1 ++ l2 ++ rest)).
      { rewrite P1. rewrite <- !app_assoc. simpl. rewrite <- (Permutation_middle l1 (r :: l2 ++ rest) pr).
        rewrite <- Permutation_middle. apply perm_swap. }
      pose proof P3 as P1'. apply (Permutation_map rptr) in P1'.
      apply (Permutation_NoDup P1') in ND. simpl in ND. apply NoDup_cons_iff in ND as [ND ND2].
      apply NoDup_cons_iff in ND2 as [ND2 _].
      assert (K : forall b, In b (pr :: l1 ++ l2 ++ rest) -> rptr b <> p).
      { intros b Hb' Hbp. apply ND. rewrite Hrp, <- Hbp.
        apply (in_map rptr) in Hb'. exact Hb'. }
      split; [|split; [intros [= Heq]; apply (K pr); [left; auto|auto]|exists (pr :: l1 ++ l2 ++ rest); auto]].
      unfold others.
      assert (Y : Permutation (filter (fun b => negb (rptr b =? p)) (blocks g))
                    (filter (fun b => negb (rptr b =? p)) (r :: pr :: l1 ++ l2 ++ rest))).
      { clear - P3. revert P3. generalize (r :: pr :: l1 ++ l2 ++ rest). intros l P3.
        induction P3; simpl; auto.
        - destruct (negb _); auto.
        - destruct (negb (rptr x =? p)), (negb (rptr y =? p)); auto. constructor.
        - etransitivity; eauto. }
      rewrite Y. cbn [filter]. rewrite (proj2 (N.eqb_eq _ _) Hrp). cbn [negb].
      change (if negb (rptr pr =? p) then pr :: filter (fun z => negb (rptr z =? p)) (l1 ++ l2 ++ rest)
              else filter (fun z => negb (rptr z =? p)) (l1 ++ l2 ++ rest))
        with (filter (fun z => negb (rptr z =? p)) (pr :: l1 ++ l2 ++ rest)).
      rewrite filter_id by (intros b Hb'; apply negb_true_iff, N.eqb_neq; auto).
      cbn [map]. rewrite raise_id.
      2:{ intros b Hb' [= Heq]. apply ND2. rewrite Heq. apply in_map; auto. }
      assert (Hor : or_flags pr r = raise_root (Some (rptr pr)) r pr).
      { unfold or_flags, raise_root. rewrite N.eqb_refl, Hrm, orb_false_r. cbn [andb].
        destruct pr as [? ? ? ? ? pro]; cbn. destruct (rroot r); [rewrite orb_true_r|rewrite orb_false_r]; auto. }
      rewrite Hor. rewrite <- app_assoc. symmetry. cbn [app]. apply Permutation_middle. }
  destruct X as (q & P4 & Hq & keep & P5 & Hk).
  eexists. exists r, q. split; [reflexivity|]. split; auto. split; auto.
  match goal with |- wf E ?x /\ _ => set (g2 := x) end.
  assert (HB : Permutation (blocks g2) (map (raise_root q r) (others p (blocks g)))).
  { unfold blocks at 1. cbn [g2 buckets]. rewrite P2. exact P4. }
  split; [|split; [exact HB|cbn; auto]].
  assert (O : Permutation (others p (blocks g)) keep).
  { unfold others.
    assert (Y : Permutation (filter (fun b => negb (rptr b =? p)) (blocks g))
                  (filter (fun b => negb (rptr b =? p)) (r :: keep))).
    { clear - P5. revert P5. generalize (r :: keep). intros l P3.
      induction P3; simpl; auto.
      - destruct (negb _); auto.
      - destruct (negb (rptr x =? p)), (negb (rptr y =? p)); auto. constructor.
      - etransitivity; eauto. }
    rewrite Y. cbn [filter]. rewrite (proj2 (N.eqb_eq _ _) Hrp). cbn [negb].
    rewrite filter_id; auto. intros b Hb. apply negb_true_iff, N.eqb_neq. auto. }
  assert (HK : Permutation (blocks g2) (map (raise_root q r) keep)).
  { rewrite HB. apply Permutation_map. auto. }
  destruct (bounds E g (fun _ => true) W) as (_ & _ & B3 & B4).
  pose proof (wf_size _ _ W) as HS. pose proof (wf_allocs _ _ W) as HA.
  rewrite (Permutation_length P5) in HS. rewrite (total_perm _ _ P5) in HA. cbn [length total] in HS, HA.
  constructor.
  - destruct (wf_len _ _ W) as (a & Ha & Hl). exists a. cbn [g2 ap buckets]. rewrite upd_length. auto.
  - intros j y Hy. cbn [g2 buckets] in *. rewrite upd_length. destruct (Nat.eq_dec i j) as [<-|Hn].
    + rewrite nth_upd_eq' in Hy by auto.
      assert (exists z, In z (nth i (buckets g) []) /\ rptr z = rptr y) as (z & Hz & <-).
      { destruct Hcase as [[Hb ->]|(l1 & pr & Hb & ->)]; rewrite Hb.
        - exists y. split; auto. right; auto.
        - apply in_app_iff in Hy as [Hy|[<-|Hy]].
          + exists y. split; auto. apply in_app_iff; auto.
          + exists pr. split; auto. apply in_app_iff. right; left; auto.
          + exists y. split; auto. apply in_app_iff. right; right; right; auto. }
      apply (wf_place _ _ W). auto.
    + rewrite nth_upd_ne' in Hy by auto. apply (wf_place _ _ W). auto.
  - eapply FOP_perm; [apply apart_sym|symmetry; exact HK|]. apply FOP_map.
    + intros y z. unfold apart. rewrite !raise_ptr, !raise_size. auto.
    + pose proof (FOP_perm _ apart_sym _ _ P5 (wf_apart _ _ W)) as F. inversion F; auto.
  - eapply Permutation_Forall; [symmetry; exact HK|]. apply Forall_map.
    pose proof (Permutation_Forall P5 (wf_addr _ _ W)) as F. inversion F; subst.
    eapply Forall_impl; [|eassumption]. intros y. unfold block_ok. rewrite raise_ptr, raise_size. auto.
  - rewrite (Permutation_length HK), map_length. cbn [g2 gsize]. rewrite sub64_ok; lia.
  - rewrite (total_perm _ _ HK), total_map by apply raise_size. cbn [g2 allocs]. rewrite sub64_ok; lia.
  - eapply Permutation_Forall; [symmetry; exact HK|]. apply Forall_map.
    pose proof (Permutation_Forall P5 (wf_marks _ _ W)) as F. inversion F; subst.
    eapply Forall_impl; [|eassumption]. intros y. rewrite raise_mark. auto.
Qed.

Lemma remove_none g p : placed (buckets g) -> (forall b, In b (blocks g) -> rptr b <> p) -> gc_remove g p = None.
Proof.
  intros P H. unfold gc_remove.
  destruct (remove_chain _ p) as [[b r]|] eqn:RC; auto.
  destruct (remove_chain_some _ _ _ _ RC) as (A & l2 & Hc). exfalso.
  apply (H r); auto. eapply in_nth_concat with (i := hidx p (length (buckets g))).
  destruct Hc as [[-> _]|(l1 & pr & -> & _)]; [left; auto|]. apply in_app_iff. right; right; left; auto.
Qed.

(** ** Operations *)
Lemma fill_other f p n m b : rptr b + rsize b <= p \/ p + n <= rptr b -> same_on m (fill f p n m) b.
Proof.
  intros H a Ha. unfold fill. destruct (N.leb_spec p a), (N.ltb_spec a (p + n)); simpl; auto. lia.
Qed.

Lemma room_ok E g size r : room E g ((size + header) mod two64) r -> size + header < two64 ->
  forall d k rt, let n := mkrec (r + header) size d k false rt in
  block_ok E n /\ (forall b, In b (blocks g) -> apart n b).
Proof.
  intros (A & B & C) H d k rt n. rewrite N.mod_small in * by auto. split.
  - unfold block_ok, header in *. cbn [n rptr rsize]. lia.
  - intros b Hb. specialize (C b Hb). unfold apart, header in *. cbn [n rptr rsize]. lia.
Qed.

Lemma alloc_ok E f g size d k t1 t2 stk g' x ev : good_env E -> wf E g -> size + header < two64 ->
  GC_alloc E f g size d k t1 t2 stk = Some (g', x, ev) ->
  exists g1, colls E stk g g1 ev /\ wf E g' /\
    Permutation (blocks g') (mkrec x size d k false false :: blocks g1) /\
    dirty g' = (dirty g1 + size) mod two64 /\ collecting g' = collecting g /\
    mem g' = fill f x size (mem g1) /\ header <= x /\
    (forall b, In b (blocks g1) -> same_on (mem g1) (mem g') b).
Proof.
  intros GE W Hs H. unfold GC_alloc in H.
  destruct (gc_collect_if_needed E g stk) as [[g1 ev1]|] eqn:H1; [|discriminate].
  assert (C1 : colls E stk g g1 ev1).
  { unfold gc_collect_if_needed in H1. destruct (_ && _); [apply colls_one; auto|].
    inversion H1; subst; constructor. }
  destruct (colls_ok _ _ _ _ _ C1 W) as (W1 & K1 & _).
  destruct (gc_alloc_record E f g1 size d k t1 t2 stk) as [[[g2 [r|]] ev2]|] eqn:H2; try discriminate.
  assert (X : exists g0 a, colls E stk g1 g0 ev2 /\ room E g0 ((size + header) mod two64) a /\
    r = mkrec (a + header) size d k false false /\
    g2 = mkgc (buckets g0) (ap g0) (gsize g0) (allocs g0) (dirty g0) (collecting g0)
           (fill f (a + header) size (mem g0))).
  { unfold gc_alloc_record in H2. destruct (malloc E t1 g1 _) as [a|] eqn:M1.
    - inversion H2; subst. exists g1, a. split; [constructor|]. split; [eapply ge_malloc; eauto|]. auto.
    - destruct (gc_collect E g1 stk) as [[g0 e0]|] eqn:M2; [|discriminate].
      destruct (malloc E t2 g0 _) as [a|] eqn:M3; inversion H2; subst.
      exists g0, a. split; [apply colls_one; auto|]. split; [eapply ge_malloc; eauto|]. auto. }
  destruct X as (g0 & a & C2 & Rm & -> & ->).
  destruct (colls_ok _ _ _ _ _ C2 W1) as (W0 & K0 & _).
  destruct (room_ok _ _ _ _ Rm Hs d k false) as (R1 & R2).
  match type of H with match gc_add_record ?y ?z with _ => _ end = _ =>
    destruct (add_ok E y z) as (g3 & A1 & A2 & A3 & A4 & A5 & A6); auto; [apply wf_irrel; auto|] end.
  rewrite A1 in H. cbn [rptr] in H. inversion H; subst g3 x ev; clear H.
  exists g0. split; [eapply colls_app; eauto|]. split; auto. split; [exact A3|].
  cbn [dirty collecting mem rsize] in *. split; auto. split; [congruence|]. split; auto.
  split; [unfold header; lia|]. intros b Hb. rewrite A6. apply fill_other.
  destruct Rm as (Q1 & Q2 & Q3). specialize (Q3 b Hb). rewrite N.mod_small in Q3 by auto.
  destruct (in_ok _ _ _ W0 Hb) as (B1 & _). unfold header in *. lia.
Qed.

Lemma clobber_apart E r b m : block_ok E r -> block_ok E b -> apart r b -> same_on m (clobber E r m) b.
Proof.
  intros (A & _) (B & _) C a Ha. unfold clobber.
  destruct (N.leb_spec (rptr r - header) a), (N.ltb_spec a (rptr r + rsize r)); simpl; auto.
  unfold apart, header in *. lia.
Qed.

Lemma free_some E g p : wf E g -> (exists b, In b (blocks g) /\ rptr b = p) ->
  exists g' r q, GC_free E g p = (g', [EFree p]) /\ In r (blocks g) /\ rptr r = p /\ wf E g' /\
    Permutation (blocks g') (map (raise_root q r) (others p (blocks g))) /\
    dirty g' = dirty g /\ collecting g' = collecting g /\ q <> Some p /\
    (forall b, In b (blocks g) -> rptr b <> p -> same_on (mem g) (mem g') b).
Proof.
  intros W H. destruct (remove_some E g p W H) as (g1 & r & q & A1 & A2 & A3 & A4 & A5 & A6 & A7 & A8 & A9).
  unfold GC_free. rewrite A1. eexists. exists r, q. split; [reflexivity|].
  split; auto. split; auto. split; [apply wf_irrel; auto|]. split; [exact A5|].
  cbn [dirty collecting mem]. split; auto. split; auto. split; auto.
  intros b Hb Hn. rewrite A8. destruct (in_apart _ _ _ _ W A2 Hb) as [->|Ha]; [congruence|].
  apply clobber_apart; [exact (in_ok _ _ _ W A2)|exact (in_ok _ _ _ W Hb)|exact Ha].
Qed.
Lemma free_none E g p : wf E g -> (forall b, In b (blocks g) -> rptr b <> p) -> GC_free E g p = (g, []).
Proof. intros W H. unfold GC_free. rewrite remove_none; auto. apply W. Qed.

Lemma registered_dec (l : list rec) p : {exists b, In b l /\ rptr b = p} + {forall b, In b l -> rptr b <> p}.
Proof.
  induction l as [|r l IH]; [right; intros b []|]. destruct (N.eq_dec (rptr r) p) as [Hp|Hp].
  - left. exists r. split; [left; auto|auto].
  - destruct IH as [IH|IH].
    + left. destruct IH as (b & Hb & Hbp). exists b. split; [right; auto|auto].
    + right. intros b [<-|Hb]; auto.
Qed.

Lemma in_others p l b : In b (others p l) <-> In b l /\ rptr b <> p.
Proof. unfold others. rewrite filter_In, negb_true_iff, N.eqb_neq. tauto. Qed.

Lemma realloc_ok E g p size d k t1 t2 stk g' x ev : good_env E -> wf E g -> size + header < two64 ->
  size <> 0 -> (exists b, In b (blocks g) /\ rptr b = p) ->
  GC_realloc E g p size d k t1 t2 stk = Some (g', x, ev) ->
  exists g1 g2 r q, gc_remove g p = Some (g1, r) /\ In r (blocks g) /\ rptr r = p /\ wf E g1 /\
    Permutation (blocks g1) (map (raise_root q r) (others p (blocks g))) /\ q <> Some p /\
    dirty g1 = dirty g /\ collecting g1 = collecting g /\ mem g1 = mem g /\
    colls E stk g1 g2 ev /\ wf E g' /\ collecting g' = collecting g /\
    (x = 0 /\ g' = g2 \/
     header <= x /\ Permutation (blocks g') (mkrec x size d k false (rroot r) :: blocks g2) /\
       dirty g' = (dirty g2 + size) mod two64 /\
       mem g' = moved E p (rsize r) x size (mem g2)) /\
    (forall b, In b (blocks g2) -> same_on (mem g2) (mem g') b).
Proof.
  intros GE W Hs Hz Hex H. unfold GC_realloc in H. rewrite (proj2 (N.eqb_neq _ _) Hz) in H.
  assert (Hp : p <> 0).
  { destruct Hex as (b & Hb & <-). destruct (in_ok _ _ _ W Hb) as (B & _). unfold header in B. lia. }
  rewrite (proj2 (N.eqb_neq _ _) Hp) in H.
  destruct (find_rec (buckets g) p) eqn:F.
  2:{ exfalso. destruct Hex as (b & Hb & Hbp). eapply find_rec_none; eauto. apply W. }
  destruct (remove_some E g p W Hex) as (g1 & o & q & A1 & A2 & A3 & A4 & A5 & A6 & A7 & A8 & A9).
  rewrite A1 in H.
  destruct (gc_realloc_record E g1 o size d k t1 t2 stk) as [[[g0 rr] ev0]|] eqn:H2; [|discriminate].
  assert (Hap : forall b, In b (blocks g1) -> apart o b).
  { intros b Hb. apply (Permutation_in _ A5) in Hb. apply in_map_iff in Hb as (b0 & <- & Hb0).
    apply in_others in Hb0 as [Hb0 Hn]. destruct (in_apart _ _ _ _ W A2 Hb0) as [->|Hap].
    - congruence.
    - unfold apart in *. rewrite raise_ptr, raise_size. auto. }
  assert (X : exists g2, colls E stk g1 g2 ev0 /\ (rr = None /\ g0 = g2 \/
    exists a, room E g2 ((size + header) mod two64) a /\
    rr = Some (mkrec (a + header) size d k false (rroot o)) /\
    g0 = mkgc (buckets g2) (ap g2) (gsize g2) (allocs g2) (dirty g2) (collecting g2)
           (moved E (rptr o) (rsize o) (a + header) size (mem g2)))).
  { unfold gc_realloc_record in H2. destruct (realloc E t1 g1 _ _) as [a|] eqn:M1.
    - inversion H2; subst. exists g1. split; [constructor|]. right. exists a.
      split; [eapply ge_realloc; eauto|]. auto.
    - destruct (gc_collect E g1 stk) as [[g2 e2]|] eqn:M2; [|discriminate].
      destruct (realloc E t2 g2 _ _) as [a|] eqn:M3; inversion H2; subst.
      + exists g2. split; [apply colls_one; auto|]. right. exists a. split; [eapply ge_realloc; eauto|]. auto.
      + exists g0. split; [apply colls_one; auto|]. auto. }
  destruct X as (g2 & C & X). destruct (colls_ok _ _ _ _ _ C A4) as (W2 & K2 & Sub & _).
  destruct X as [(-> & ->)|(a & Rm & -> & ->)].
  - inversion H; subst g' x ev. exists g1, g2, o, q. repeat (split; [solve [auto | congruence]|]).
    intros b _. apply same_on_refl.
  - destruct (room_ok _ _ _ _ Rm Hs d k (rroot o)) as (R1 & R2).
    match type of H with match gc_add_record ?y ?z with _ => _ end = _ =>
      destruct (add_ok E y z) as (g3 & B1 & B2 & B3 & B4 & B5 & B6); auto; [apply wf_irrel; auto|] end.
    rewrite B1 in H. cbn [rptr] in H. inversion H; subst g3 x ev; clear H.
    cbn [dirty collecting mem rsize] in *. rewrite A3 in *.
    exists g1, g2, o, q. repeat (split; [solve [auto | congruence]|]).
    split; [right; split; [unfold header; lia|]; auto|].
    intros b Hb c Hc. rewrite B6. unfold moved.
    destruct Rm as (Q1 & Q2 & Q3). specialize (Q3 b Hb). rewrite N.mod_small in Q3 by auto.
    destruct (in_ok _ _ _ W2 Hb) as (D1 & _). destruct (in_ok _ _ _ W A2) as (D2 & _).
    destruct (Sub b Hb) as [Hb1 _]. specialize (Hap b Hb1).
    unfold apart in *; unfold header in *. rewrite A3 in *.
    destruct (N.leb_spec (a + 32) c), (N.ltb_spec c (a + 32 + size)); simpl; try lia;
    destruct (N.leb_spec (p - 32) c), (N.ltb_spec c (p + rsize o)); simpl; auto; lia.
Qed.

Lemma realloc_alloc E g p size d k t1 t2 stk : wf E g -> size <> 0 ->
  (forall b, In b (blocks g) -> rptr b <> p) ->
  GC_realloc E g p size d k t1 t2 stk = GC_alloc E (junk E) g size d k t1 t2 stk.
Proof.
  intros W Hz H. unfold GC_realloc. rewrite (proj2 (N.eqb_neq _ _) Hz). destruct (p =? 0); auto.
  destruct (find_rec (buckets g) p) eqn:F; auto. apply find_rec_in in F as [F1 F2].
  exfalso. eapply H; eauto.
Qed.

Lemma register_ok E g p h : wf E g -> (forall r, rptr (h r) = rptr r /\ rsize (h r) = rsize r /\ rmark (h r) = rmark r) ->
  wf E (register g p h) /\
  blocks (register g p h) = map (fun r => if rptr r =? p then h r else r) (blocks g) /\
  dirty (register g p h) = dirty g /\ collecting (register g p h) = collecting g /\ mem (register g p h) = mem g.
Proof.
  intros W Hh. unfold register. destruct (find_rec (buckets g) p) eqn:F.
  - set (u := fun r => if rptr r =? p then h r else r).
    assert (U : forall r, rptr (u r) = rptr r /\ rsize (u r) = rsize r /\ rmark (u r) = rmark r).
    { intros r0. unfold u. destruct (rptr r0 =? p); auto. }
    assert (HB : blocks (set_buckets g (upd_rec p h (buckets g))) = map u (blocks g)).
    { unfold blocks, set_buckets, upd_rec. cbn [buckets]. fold u. rewrite concat_map. reflexivity. }
    split; [|split; [exact HB|cbn; auto]].
    constructor; rewrite ?HB; cbn [set_buckets buckets ap gsize allocs].
    + destruct (wf_len _ _ W) as (a & Ha & Hl). exists a. unfold upd_rec. rewrite map_length. auto.
    + intros i x Hx. unfold upd_rec in *. rewrite map_length. fold u in Hx.
      change (@nil rec) with (map u []) in Hx. rewrite map_nth in Hx.
      apply in_map_iff in Hx as (y & <- & Hy). rewrite (proj1 (U y)). apply (wf_place _ _ W). auto.
    + apply FOP_map; [|apply W]. intros a b. unfold apart.
      destruct (U a) as (-> & -> & _). destruct (U b) as (-> & -> & _). auto.
    + apply Forall_map. eapply Forall_impl; [|apply W]. intros a. unfold block_ok.
      destruct (U a) as (-> & -> & _). auto.
    + rewrite map_length. apply W.
    + rewrite total_map; [apply W|]. intros a. apply U.
    + apply Forall_map. eapply Forall_impl; [|exact (wf_marks _ _ W)]. intros a Ha. cbv beta in *.
      rewrite (proj2 (proj2 (U a))). exact Ha.
  - split; auto. split; [|auto]. symmetry. rewrite <- (map_id (blocks g)) at 2. apply map_ext_in.
    intros r Hr. destruct (N.eqb_spec (rptr r) p); auto. exfalso. eapply find_rec_none; eauto. apply W.
Qed.

Lemma reachable_ok E g stk : wf E g -> exists n f,
  gc_get_reachable E g stk = Some (g, n) /\
  (forall r, In r (blocks g) -> (f (rptr r) = true <-> reach E (mem g) (blocks g) stk r)) /\
  n = total (kept f (blocks g)).
Proof.
  intros W. unfold gc_get_reachable. destruct (gc_mark_ok E g W stk) as (f & A & B). rewrite A.
  assert (HU : gc_unmark (mmap f (buckets g)) = buckets g).
  { unfold gc_unmark, mmap. rewrite map_map. rewrite <- (map_id (buckets g)) at 2. apply map_ext_in.
    intros l Hl. rewrite map_map. rewrite <- (map_id l) at 2. apply map_ext_in. intros r Hr.
    assert (Hm : rmark r = false) by (apply (in_mark _ _ _ W); apply in_concat; eauto).
    unfold setm. destruct (f (rptr r)); destruct r; cbn in *; subst; auto. }
  rewrite HU. assert (HG : mkgc (buckets g) (ap g) (gsize g) (allocs g) (dirty g) (collecting g) (mem g) = g)
    by (destruct g; reflexivity). rewrite HG.
  eexists. exists f. split; [reflexivity|].
  split; auto. rewrite concat_mmap. fold (blocks g).
  assert (G : forall l t, (forall r, In r l -> rmark r = false) -> t + total (kept f l) < two64 ->
    fold_left (fun t r => if rmark r then (t + rsize r) mod two64 else t) (map (setm f) l) t = t + total (kept f l)).
  { induction l as [|r l IH]; intros t Hm Hb; [simpl; lia|].
    cbn [map fold_left]. assert (Hr : rmark (setm f r) = f (rptr r)).
    { unfold setm. destruct (f (rptr r)); auto. apply Hm; left; auto. }
    assert (Hsz : rsize (setm f r) = rsize r) by (unfold setm; destruct (f (rptr r)); auto).
    rewrite Hr, Hsz. unfold kept in *. cbn [filter] in *. destruct (f (rptr r)); cbn [total] in *.
    - rewrite N.mod_small by lia. rewrite IH; [lia| |lia]. intros x Hx; apply Hm; right; auto.
    - apply IH; auto. intros x Hx; apply Hm; right; auto. }
  rewrite G; [lia| |].
  - intros r Hr. eapply in_mark; eauto.
  - destruct (bounds E g (fun _ => true) W) as (_ & _ & B3 & _). rewrite (wf_allocs _ _ W) in B3.
    pose proof (total_split (fun r => f (rptr r)) (blocks g)) as T. unfold kept.
    rewrite N.add_0_l. eapply N.le_lt_trans; [|exact B3]. rewrite T. apply N.le_add_r.
Qed.

Lemma create_wf E m : wf E (gc_create m).
Proof.
  assert (HB : blocks (gc_create m) = []) by apply concat_repeat_nil'.
  constructor; rewrite ?HB; auto; try constructor.
  - exists (nth 0 gc_sizes 0). split; [reflexivity|]. apply repeat_length.
  - intros r. apply placed_repeat.
Qed.

Lemma step_wf E g o g' x ev : good_env E -> op_ok o -> wf E g -> step E g o = Some (g', x, ev) -> wf E g'.
Proof.
  intros GE OK W H. destruct o; cbn [step op_ok] in *.
  - destruct (alloc_ok _ _ _ _ _ _ _ _ _ _ _ _ GE W OK H) as (? & ? & ? & _); auto.
  - destruct (alloc_ok _ _ _ _ _ _ _ _ _ _ _ _ GE W OK H) as (? & ? & ? & _); auto.
  - destruct (N.eq_dec size 0) as [->|Hz].
    + unfold GC_realloc in H. cbn [N.eqb] in H. destruct (GC_free E g p) as [g1 e1] eqn:F.
      inversion H; subst. destruct (registered_dec (blocks g) p) as [R|R].
      * destruct (free_some E g p W R) as (? & ? & ? & X & _ & _ & Y & _). congruence.
      * rewrite (free_none E g p W R) in F. congruence.
    + destruct (registered_dec (blocks g) p) as [R|R].
      * destruct (realloc_ok _ _ _ _ _ _ _ _ _ _ _ _ GE W OK Hz R H) as (? & ? & ? & ? & ? & ? & ? & ? & ? & ? & ? & ? & ? & ? & ? & _); auto.
      * rewrite realloc_alloc in H by auto.
        destruct (alloc_ok _ _ _ _ _ _ _ _ _ _ _ _ GE W OK H) as (? & ? & ? & _); auto.
  - destruct (GC_free E g p) as [g1 e1] eqn:F. inversion H; subst.
    destruct (registered_dec (blocks g) p) as [R|R].
    + destruct (free_some E g p W R) as (? & ? & ? & X & _ & _ & Y & _). congruence.
    + rewrite (free_none E g p W R) in F. congruence.
  - destruct (gc_collect E g stk) as [[g1 e1]|] eqn:F; inversion H; subst.
    eapply coll_step; eauto.
  - inversion H; subst. apply register_ok; auto.
  - inversion H; subst. apply register_ok; auto.
  - inversion H; subst. apply register_ok; auto.
  - inversion H; subst. apply wf_irrel; auto.
  - inversion H; subst. apply wf_irrel; auto.
  - inversion H; subst. auto.
  - destruct (reachable_ok E g stk W) as (n & f & A & _). rewrite A in H. inversion H; subst; auto.
  - destruct (reachable_ok E g stk W) as (n & f & A & _). rewrite A in H. inversion H; subst; auto.
  - inversion H; subst. apply wf_irrel; auto.
Qed.

Lemma run_wf E : good_env E -> forall os g g' xs, Forall op_ok os -> wf E g -> run E g os = Some (g', xs) -> wf E g'.
Proof.
  intros GE. induction os as [|o os IH]; intros g g' xs F W H; cbn [run] in H.
  - inversion H; subst; auto.
  - inversion F; subst. destruct (step E g o) as [[[g1 x] ev]|] eqn:S; [|discriminate].
    destruct (run E g1 os) as [[g2 ys]|] eqn:R; [|discriminate]. inversion H; subst.
    eapply IH; [assumption| |exact R]. eapply step_wf; eauto.
Qed.

(** ** Vocabulary for single operations *)

(** [o] asks to free or reallocate the block at [p]. *)
Definition releases (o : op) (p : N) : Prop :=
  match o with ORealloc q _ _ _ _ _ _ | OFree q => q = p | _ => False end.
(** The stack words scanned if [o] collects. *)
Definition scanned (o : op) : list N :=
  match o with
  | OAlloc _ _ _ _ _ stk | OCalloc _ _ _ _ _ _ stk | ORealloc _ _ _ _ _ _ stk
  | OCollect stk | OReachable stk | OCollectable stk => stk
  | _ => []
  end.
(** The blocks a collection during [o] considers: a block being reallocated is
    not among them. *)
Definition seen (o : op) (bl : list rec) : list rec :=
  match o with ORealloc p _ _ _ _ _ _ => others p bl | _ => bl end.
Definition writes_into (o : op) (b : rec) : Prop :=
  match o with OWrite a _ => rptr b <= a < rptr b + rsize b | _ => False end.
(** [b'] is [b] after operation [o]. *)
Definition carried (o : op) (b b' : rec) : Prop :=
  rptr b' = rptr b /\ rsize b' = rsize b /\
  (rdtor b' = rdtor b \/ o = ORegDtor (rptr b) (rdtor b')) /\
  (rmrk b' = rmrk b \/ o = ORegMrk (rptr b) (rmrk b')) /\
  (rroot b = true -> rroot b' = true).

Lemma carried_refl o b : carried o b b.
Proof. unfold carried; auto 10. Qed.
Lemma carried_raise o q r b : carried o b (raise_root q r b).
Proof.
  unfold carried, raise_root. destruct q; auto 10. destruct (_ && _); cbn; auto 10.
Qed.
Lemma raise_refers E m q r b c : refers E m b c -> refers E m (raise_root q r b) (raise_root q r c).
Proof.
  unfold refers. rewrite !raise_ptr, raise_size.
  assert (H : rmrk (raise_root q r b) = rmrk b) by (unfold raise_root; destruct q; auto; destruct (_ && _); auto).
  rewrite H. auto.
Qed.
Lemma raise_root_true q r b : rroot b = true -> rroot (raise_root q r b) = true.
Proof. unfold raise_root. destruct q; auto. destruct (_ && _); auto. Qed.

Lemma reach_raise E m q r bl bl' stk : (forall c, In c bl -> In (raise_root q r c) bl') ->
  forall b, reach E m bl stk b -> reach E m bl' stk (raise_root q r b).
Proof.
  intros H b Hb. induction Hb.
  - apply reach_root; auto. apply raise_root_true; auto.
  - apply reach_stack; auto. rewrite raise_ptr; auto.
  - eapply reach_via; eauto. apply raise_refers; auto.
Qed.
Lemma others_id p l : (forall b, In b l -> rptr b <> p) -> others p l = l.
Proof. intros H. apply filter_id. intros b Hb. apply negb_true_iff, N.eqb_neq. auto. Qed.

Lemma colls_keep E stk g g1 ev b : colls E stk g g1 ev -> wf E g -> In b (blocks g) ->
  (In ECollect ev -> reach E (mem g) (blocks g) stk b) -> In b (blocks g1).
Proof.
  intros C W Hb HR. destruct (colls_ok _ _ _ _ _ C W) as (_ & _ & _ & B4 & [[-> ->]|(B5 & _)]); auto.
  eapply reach_in. apply B4; auto.
Qed.

Lemma alloc_keeps E f g size d k t1 t2 stk g' x ev b : good_env E -> wf E g -> size + header < two64 ->
  GC_alloc E f g size d k t1 t2 stk = Some (g', x, ev) -> In b (blocks g) ->
  (In ECollect ev -> reach E (mem g) (blocks g) stk b) -> In b (blocks g') /\ same_on (mem g) (mem g') b.
Proof.
  intros GE W Hs H Hb HR.
  destruct (alloc_ok _ _ _ _ _ _ _ _ _ _ _ _ GE W Hs H) as (g1 & C & _ & P & _ & _ & _ & _ & S).
  pose proof (colls_keep _ _ _ _ _ _ C W Hb HR) as Hb1.
  destruct (colls_ok _ _ _ _ _ C W) as (_ & _ & B3 & _). split.
  - eapply Permutation_in; [symmetry; exact P|]. right; auto.
  - eapply same_on_trans; [apply B3; auto|]. auto.
Qed.

Lemma register_keeps E g p h o b : wf E g ->
  (forall r, rptr (h r) = rptr r /\ rsize (h r) = rsize r /\ rmark (h r) = rmark r) ->
  (forall r, rptr r = p -> carried o r (h r)) ->
  In b (blocks g) -> exists b', In b' (blocks (register g p h)) /\ carried o b b' /\
    same_on (mem g) (mem (register g p h)) b.
Proof.
  intros W Hh Hc Hb. destruct (register_ok E g p h W Hh) as (_ & B & _ & _ & M).
  rewrite B, M. exists (if rptr b =? p then h b else b). split; [|split].
  - apply in_map_iff. exists b. auto.
  - destruct (N.eqb_spec (rptr b) p); auto. apply carried_refl.
  - apply same_on_refl.
Qed.

(** No operation loses a block it was not asked to release, unless a collection
    found it unreachable. *)
Lemma step_keeps E g o g' x ev b : good_env E -> op_ok o -> wf E g -> step E g o = Some (g', x, ev) ->
  In b (blocks g) -> ~ releases o (rptr b) ->
  (In ECollect ev -> reach E (mem g) (seen o (blocks g)) (scanned o) b) ->
  exists b', In b' (blocks g') /\ carried o b b' /\ (~ writes_into o b -> same_on (mem g) (mem g') b).
Proof.
  intros GE OK W H Hb Hrel HR.
  assert (Free : forall p g1 e1, GC_free E g p = (g1, e1) -> rptr b <> p ->
    exists b', In b' (blocks g1) /\ carried o b b' /\ same_on (mem g) (mem g1) b).
  { intros p g1 e1 F Hn. destruct (registered_dec (blocks g) p) as [R|R].
    - destruct (free_some E g p W R) as (g2 & r & q & A1 & A2 & A3 & A4 & A5 & _ & _ & _ & A9).
      rewrite A1 in F. inversion F; subst g2 e1. exists (raise_root q r b). split; [|split; [apply carried_raise|auto]].
      eapply Permutation_in; [symmetry; exact A5|]. apply in_map. apply in_others. auto.
    - rewrite (free_none E g p W R) in F. inversion F; subst. exists b. split; auto.
      split; [apply carried_refl|apply same_on_refl]. }
  assert (Al : forall f size d k t1 t2 stk, GC_alloc E f g size d k t1 t2 stk = Some (g', x, ev) ->
    size + header < two64 -> (In ECollect ev -> reach E (mem g) (blocks g) stk b) ->
    exists b', In b' (blocks g') /\ carried o b b' /\ (~ writes_into o b -> same_on (mem g) (mem g') b)).
  { intros f size d k t1 t2 stk HA Hs HRa.
    destruct (alloc_keeps _ _ _ _ _ _ _ _ _ _ _ _ _ GE W Hs HA Hb HRa) as [B1 B2].
    exists b. split; auto. split; [apply carried_refl|auto]. }
  destruct o; cbn [step op_ok releases scanned seen] in *.
  - eapply Al; eauto.
  - eapply Al; eauto.
  - assert (Hn : rptr b <> p) by congruence. destruct (N.eq_dec size 0) as [->|Hz].
    + unfold GC_realloc in H. cbn [N.eqb] in H. destruct (GC_free E g p) as [g1 e1] eqn:F.
      inversion H; subst. destruct (Free _ _ _ F Hn) as (b' & X1 & X2 & X3). eauto.
    + destruct (registered_dec (blocks g) p) as [R|R].
      * destruct (realloc_ok _ _ _ _ _ _ _ _ _ _ _ _ GE W OK Hz R H)
          as (g1 & g2 & r & q & A1 & A2 & A3 & A4 & A5 & A6 & A7 & A8 & A9 & C & W' & K & Cases & S).
        set (b1 := raise_root q r b).
        assert (Hb1 : In b1 (blocks g1)).
        { eapply Permutation_in; [symmetry; exact A5|]. apply in_map, in_others. auto. }
        assert (HR1 : In ECollect ev -> reach E (mem g1) (blocks g1) stk b1).
        { intros HC. rewrite A9. eapply reach_raise; [|exact (HR HC)].
          intros c Hc. eapply Permutation_in; [symmetry; exact A5|]. apply in_map. auto. }
        pose proof (colls_keep _ _ _ _ _ _ C A4 Hb1 HR1) as Hb2.
        destruct (colls_ok _ _ _ _ _ C A4) as (_ & _ & B3 & _).
        exists b1. split; [|split; [apply carried_raise|]].
        { destruct Cases as [[_ ->]|(_ & P & _)]; auto.
          eapply Permutation_in; [symmetry; exact P|]. right; auto. }
        intros _. assert (S1 : same_on (mem g1) (mem g') b1).
        { eapply same_on_trans; [apply B3; exact Hb2|]. apply S; auto. }
        rewrite A9 in S1. unfold same_on, b1 in *. rewrite raise_ptr, raise_size in S1. exact S1.
      * rewrite realloc_alloc in H by auto. eapply Al; eauto. rewrite (others_id _ _ R) in HR. auto.
  - destruct (GC_free E g p) as [g1 e1] eqn:F. inversion H; subst.
    destruct (Free _ _ _ F) as (b' & X1 & X2 & X3); [congruence|]. eauto.
  - destruct (gc_collect E g stk) as [[g1 e1]|] eqn:F; inversion H; subst.
    destruct (coll_step _ _ _ _ _ W F) as (_ & _ & _ & A4 & A5 & f & _ & ->).
    assert (HB : In b (blocks g')) by (apply A4, HR; left; auto).
    exists b. split; auto. split; [apply carried_refl|auto].
  - inversion H; subst. destruct (register_keeps E g p (with_dtor d) (ORegDtor p d) b W) as (b' & X1 & X2 & X3); eauto.
    intros r0 <-. unfold carried; cbn; auto 10.
  - inversion H; subst. destruct (register_keeps E g p (with_mrk k) (ORegMrk p k) b W) as (b' & X1 & X2 & X3); eauto.
    intros r0 <-. unfold carried; cbn; auto 10.
  - inversion H; subst. destruct (register_keeps E g p (with_root true) (ORegRoot p) b W) as (b' & X1 & X2 & X3); eauto.
    intros r0 <-. unfold carried; cbn; auto 10.
  - inversion H; subst. exists b. split; auto. split; [apply carried_refl|intros _; apply same_on_refl].
  - inversion H; subst. exists b. split; auto. split; [apply carried_refl|intros _; apply same_on_refl].
  - inversion H; subst. exists b. split; auto. split; [apply carried_refl|intros _; apply same_on_refl].
  - destruct (reachable_ok E g stk W) as (n & f & A & _). rewrite A in H. inversion H; subst.
    exists b. split; auto. split; [apply carried_refl|intros _; apply same_on_refl].
  - destruct (reachable_ok E g stk W) as (n & f & A & _). rewrite A in H. inversion H; subst.
    exists b. split; auto. split; [apply carried_refl|intros _; apply same_on_refl].
  - inversion H; subst. exists b. split; auto. split; [apply carried_refl|].
    intros Hw c Hc. cbn [mem]. destruct (N.eqb_spec c a); auto. subst. exfalso. apply Hw. exact Hc.
Qed.

(** Where the blocks after an operation come from. *)
Definition from_old (o : op) (g : gc) (b' : rec) : Prop :=
  exists b, In b (blocks g) /\ rptr b' = rptr b /\ rsize b' = rsize b /\ ~ releases o (rptr b) /\
    (rroot b' = rroot b \/ o = ORegRoot (rptr b) \/
     exists r, In r (blocks g) /\ releases o (rptr r) /\ rroot r = true).

Lemma from_old_same o g b : In b (blocks g) -> ~ releases o (rptr b) -> from_old o g b.
Proof. intros Hb Hr. exists b. auto 6. Qed.
Lemma from_old_raise o g q r b p : In r (blocks g) -> rptr r = p -> releases o p -> In b (others p (blocks g)) ->
  ~ releases o (rptr b) -> from_old o g (raise_root q r b).
Proof.
  intros Hr Hrp Ho Hb Hn. apply in_others in Hb as [Hb _]. exists b. rewrite raise_ptr, raise_size.
  split; auto. split; auto. split; auto. split; auto.
  unfold raise_root. destruct q; auto. destruct (rroot r) eqn:X; [|rewrite andb_false_r; auto].
  right; right. exists r. subst p. auto.
Qed.

Lemma step_origin E g o g' x ev b' : good_env E -> op_ok o -> wf E g -> step E g o = Some (g', x, ev) ->
  In b' (blocks g') -> rptr b' = x \/ from_old o g b'.
Proof.
  intros GE OK W H Hb.
  assert (Al : forall f size d k t1 t2 stk, GC_alloc E f g size d k t1 t2 stk = Some (g', x, ev) ->
    size + header < two64 -> (forall b, In b (blocks g) -> ~ releases o (rptr b)) -> rptr b' = x \/ from_old o g b').
  { intros f size d k t1 t2 stk HA Hs Hn.
    destruct (alloc_ok _ _ _ _ _ _ _ _ _ _ _ _ GE W Hs HA) as (g1 & C & _ & P & _).
    apply (Permutation_in _ P) in Hb as [<-|Hb]; [left; auto|]. right.
    destruct (colls_ok _ _ _ _ _ C W) as (_ & _ & B3 & _). apply from_old_same; [apply B3; auto|].
    apply Hn. apply B3; auto. }
  assert (Free : forall p g1 e1, GC_free E g p = (g1, e1) -> releases o p ->
     (forall q, releases o q -> q = p) -> In b' (blocks g1) -> from_old o g b').
  { intros p g1 e1 F Ho Hq Hin. destruct (registered_dec (blocks g) p) as [R|R].
    - destruct (free_some E g p W R) as (g2 & r & q & A1 & A2 & A3 & A4 & A5 & _).
      rewrite A1 in F. inversion F; subst g2 e1. apply (Permutation_in _ A5) in Hin.
      apply in_map_iff in Hin as (b & <- & Hb0). eapply from_old_raise; eauto.
      apply in_others in Hb0 as [_ Hb0]. intros Hx. apply Hq in Hx. contradiction.
    - rewrite (free_none E g p W R) in F. inversion F; subst. apply from_old_same; auto.
      intros Hx. apply Hq in Hx. apply (R b'); auto. }
  destruct o; cbn [step op_ok] in *.
  - eapply Al; eauto.
  - eapply Al; eauto.
  - destruct (N.eq_dec size 0) as [->|Hz].
    + right. unfold GC_realloc in H. cbn [N.eqb] in H. destruct (GC_free E g p) as [g1 e1] eqn:F.
      inversion H; subst. eapply Free; eauto; cbn; auto.
    + destruct (registered_dec (blocks g) p) as [R|R].
      * destruct (realloc_ok _ _ _ _ _ _ _ _ _ _ _ _ GE W OK Hz R H)
          as (g1 & g2 & r & q & A1 & A2 & A3 & A4 & A5 & A6 & A7 & A8 & A9 & C & W' & K & Cases & S).
        destruct (colls_ok _ _ _ _ _ C A4) as (_ & _ & B3 & _).
        assert (Hin : rptr b' = x \/ In b' (blocks g2)).
        { destruct Cases as [[_ ->]|(_ & P & _)]; auto.
          apply (Permutation_in _ P) in Hb as [<-|Hb]; auto. }
        destruct Hin as [|Hin]; auto. right. apply B3 in Hin as [Hin _].
        apply (Permutation_in _ A5) in Hin. apply in_map_iff in Hin as (b & <- & Hb0).
        eapply from_old_raise; eauto; [cbn; auto|]. apply in_others in Hb0 as [_ Hb0]. cbn. congruence.
      * rewrite realloc_alloc in H by auto. eapply Al; eauto. cbn. intros b Hb0 Hx. apply (R b); auto.
  - right. destruct (GC_free E g p) as [g1 e1] eqn:F. inversion H; subst. eapply Free; eauto; cbn; auto.
  - right. destruct (gc_collect E g stk) as [[g1 e1]|] eqn:F; inversion H; subst.
    destruct (coll_step _ _ _ _ _ W F) as (_ & _ & _ & A4 & _). apply A4 in Hb. apply reach_in in Hb.
    apply from_old_same; auto.
  - right. inversion H; subst. destruct (register_ok E g p (with_dtor d) W) as (_ & B & _); auto.
    rewrite B in Hb. apply in_map_iff in Hb as (b & <- & Hb0). exists b.
    destruct (rptr b =? p); cbn; auto 10.
  - right. inversion H; subst. destruct (register_ok E g p (with_mrk k) W) as (_ & B & _); auto.
    rewrite B in Hb. apply in_map_iff in Hb as (b & <- & Hb0). exists b.
    destruct (rptr b =? p); cbn; auto 10.
  - right. inversion H; subst. destruct (register_ok E g p (with_root true) W) as (_ & B & _); auto.
    rewrite B in Hb. apply in_map_iff in Hb as (b & <- & Hb0). exists b.
    destruct (N.eqb_spec (rptr b) p); [subst p|]; cbn; auto 10.
  - right. inversion H; subst. apply from_old_same; auto.
  - right. inversion H; subst. apply from_old_same; auto.
  - right. inversion H; subst. apply from_old_same; auto.
  - right. destruct (reachable_ok E g stk W) as (n & f & A & _). rewrite A in H. inversion H; subst.
    apply from_old_same; auto.
  - right. destruct (reachable_ok E g stk W) as (n & f & A & _). rewrite A in H. inversion H; subst.
    apply from_old_same; auto.
  - right. inversion H; subst. apply from_old_same; auto.
Qed.

(** Only registered blocks are freed, and they are no longer registered
    afterwards unless their address was handed out again. *)
Lemma step_frees E g o g' x ev p e : good_env E -> op_ok o -> wf E g -> step E g o = Some (g', x, ev) ->
  In e ev -> e = EFree p \/ (exists d, e = EFinal d p) ->
  (exists b, In b (blocks g) /\ rptr b = p) /\ ((exists b, In b (blocks g') /\ rptr b = p) -> x = p).
Proof.
  intros GE OK W H He Hp.
  assert (Al : forall f size d k t1 t2 stk, GC_alloc E f g size d k t1 t2 stk = Some (g', x, ev) ->
    size + header < two64 ->
    (exists b, In b (blocks g) /\ rptr b = p) /\ ((exists b, In b (blocks g') /\ rptr b = p) -> x = p)).
  { intros f size d k t1 t2 stk HA Hs.
    destruct (alloc_ok _ _ _ _ _ _ _ _ _ _ _ _ GE W Hs HA) as (g1 & C & _ & P & _).
    destruct (colls_events _ _ _ _ _ C W p e He Hp) as [X Y]. split; auto.
    intros (b & Hb & Hbp). apply (Permutation_in _ P) in Hb as [<-|Hb]; auto. exfalso. eauto. }
  assert (Free : forall q g1 e1, GC_free E g q = (g1, e1) -> In e e1 ->
    (exists b, In b (blocks g) /\ rptr b = p) /\ ((exists b, In b (blocks g1) /\ rptr b = p) -> x = p)).
  { intros q g1 e1 F Hin. destruct (registered_dec (blocks g) q) as [R|R].
    - destruct (free_some E g q W R) as (g2 & r & q' & A1 & A2 & A3 & A4 & A5 & _).
      rewrite A1 in F. inversion F; subst g2 e1. destruct Hin as [<-|[]].
      assert (q = p) as -> by (destruct Hp as [|(? & ?)]; congruence). split; auto.
      intros (b & Hb & Hbp). exfalso. apply (Permutation_in _ A5) in Hb.
      apply in_map_iff in Hb as (c & <- & Hc). apply in_others in Hc as [_ Hc]. rewrite raise_ptr in Hbp. auto.
    - rewrite (free_none E g q W R) in F. inversion F; subst. destruct Hin. }
  destruct o; cbn [step op_ok] in *.
  - eapply Al; eauto.
  - eapply Al; eauto.
  - destruct (N.eq_dec size 0) as [->|Hz].
    + unfold GC_realloc in H. cbn [N.eqb] in H. destruct (GC_free E g p0) as [g1 e1] eqn:F.
      inversion H; subst. eapply Free; eauto.
    + destruct (registered_dec (blocks g) p0) as [R|R].
      * destruct (realloc_ok _ _ _ _ _ _ _ _ _ _ _ _ GE W OK Hz R H)
          as (g1 & g2 & r & q & A1 & A2 & A3 & A4 & A5 & A6 & A7 & A8 & A9 & C & W' & K & Cases & S).
        destruct (colls_events _ _ _ _ _ C A4 p e He Hp) as [(b & Hb & Hbp) Y]. split.
        { apply (Permutation_in _ A5) in Hb. apply in_map_iff in Hb as (c & <- & Hc).
          apply in_others in Hc as [Hc _]. rewrite raise_ptr in Hbp. eauto. }
        intros (c & Hc & Hcp). destruct Cases as [[_ ->]|(_ & P & _)]; [exfalso; eauto|].
        apply (Permutation_in _ P) in Hc as [<-|Hc]; auto. exfalso. eauto.
      * rewrite realloc_alloc in H by auto. eapply Al; eauto.
  - destruct (GC_free E g p0) as [g1 e1] eqn:F. inversion H; subst. eapply Free; eauto.
  - destruct (gc_collect E g stk) as [[g1 e1]|] eqn:F; inversion H; subst.
    destruct (colls_events _ _ _ _ _ (colls_one _ _ _ _ _ F) W p e He Hp) as [X Y].
    split; auto. intros Z. contradiction.
  - inversion H; subst. destruct He.
  - inversion H; subst. destruct He.
  - inversion H; subst. destruct He.
  - inversion H; subst. destruct He.
  - inversion H; subst. destruct He.
  - inversion H; subst. destruct He.
  - destruct (reachable_ok E g stk W) as (n & f & A & _). rewrite A in H. inversion H; subst. destruct He.
  - destruct (reachable_ok E g stk W) as (n & f & A & _). rewrite A in H. inversion H; subst. destruct He.
  - inversion H; subst. destruct He.
Qed.

(** ** Events by address *)
Definition frees (p : N) (ev : list event) : nat :=
  length (filter (fun e => match e with EFree q => q =? p | _ => false end) ev).
(** The finalizers run on the block at [p], in order. *)
Definition finals (p : N) (ev : list event) : list nat :=
  flat_map (fun e => match e with EFinal d q => if q =? p then [d] else [] | _ => [] end) ev.

Lemma frees_app p a b : frees p (a ++ b) = (frees p a + frees p b)%nat.
Proof. unfold frees. rewrite filter_app, app_length. auto. Qed.
Lemma finals_app p a b : finals p (a ++ b) = finals p a ++ finals p b.
Proof. unfold finals. apply flat_map_app. Qed.
Lemma frees_one r p : frees p (free_events r) = if rptr r =? p then 1%nat else 0%nat.
Proof. unfold frees, free_events. destruct (rdtor r); simpl; destruct (rptr r =? p); auto. Qed.
Lemma finals_one r p : finals p (free_events r) =
  if rptr r =? p then match rdtor r with Some d => [d] | None => [] end else [].
Proof. unfold finals, free_events. destruct (rdtor r); simpl; destruct (rptr r =? p); auto. Qed.
Lemma frees_none l p : (forall r, In r l -> rptr r <> p) -> frees p (concat (map free_events l)) = 0%nat /\
  finals p (concat (map free_events l)) = [].
Proof.
  induction l as [|r l IH]; intros H; simpl; auto.
  rewrite frees_app, finals_app, frees_one, finals_one.
  rewrite (proj2 (N.eqb_neq _ _)) by (apply H; left; auto).
  destruct IH as [-> ->]; auto. intros x Hx; apply H; right; auto.
Qed.
Lemma frees_in l r : NoDup (map rptr l) -> In r l ->
  frees (rptr r) (concat (map free_events l)) = 1%nat /\
  finals (rptr r) (concat (map free_events l)) = match rdtor r with Some d => [d] | None => [] end.
Proof.
  induction l as [|x l IH]; intros ND H; [destruct H|]. simpl in ND. apply NoDup_cons_iff in ND as [N1 N2].
  simpl. rewrite frees_app, finals_app, frees_one, finals_one. destruct H as [->|H].
  - rewrite N.eqb_refl. destruct (frees_none l (rptr r)) as [-> ->].
    + intros y Hy Hp. apply N1. rewrite <- Hp. apply in_map; auto.
    + rewrite app_nil_r. auto.
  - rewrite (proj2 (N.eqb_neq _ _)); [apply IH; auto|]. intros Hp. apply N1. rewrite Hp. apply in_map; auto.
Qed.
Lemma NoDup_map_filter {A B} (h : A -> B) f l : NoDup (map h l) -> NoDup (map h (filter f l)).
Proof.
  induction l as [|x l IH]; simpl; intros H; auto. apply NoDup_cons_iff in H as [H1 H2].
  destruct (f x); auto. simpl. constructor; auto. intros Hin. apply H1.
  apply in_map_iff in Hin as (y & Hy & Hin). apply filter_In in Hin as [Hin _].
  rewrite <- Hy. apply in_map; auto.
Qed.

Lemma coll_events E g stk g' ev : wf E g -> gc_collect E g stk = Some (g', ev) -> forall b, In b (blocks g) ->
  (~ reach E (mem g) (blocks g) stk b -> frees (rptr b) ev = 1%nat /\
     finals (rptr b) ev = match rdtor b with Some d => [d] | None => [] end) /\
  (reach E (mem g) (blocks g) stk b -> frees (rptr b) ev = 0%nat /\ finals (rptr b) ev = []).
Proof.
  intros W H b Hb. destruct (coll_step _ _ _ _ _ W H) as (_ & _ & _ & _ & _ & f & A6 & ->).
  change (ECollect :: ?l) with ([ECollect] ++ l). rewrite frees_app, finals_app. simpl (frees _ [ECollect]).
  simpl (finals _ [ECollect]). cbn [app Nat.add].
  pose proof (NoDup_map_filter rptr (fun r => negb (f (rptr r))) _ (nodup_ptr _ _ W)) as ND.
  split; intros HR.
  - apply frees_in; auto. apply filter_In. split; auto. apply negb_true_iff.
    destruct (f (rptr b)) eqn:X; auto. apply A6 in X; auto. contradiction.
  - apply frees_none. intros r Hr Hp. apply filter_In in Hr as [Hr Hf].
    assert (r = b) as -> by (eapply in_uniq; eauto). apply A6 in HR; auto. rewrite HR in Hf. discriminate.
Qed.

Lemma frees_pos p ev : (0 < frees p ev)%nat -> In (EFree p) ev.
Proof.
  unfold frees. induction ev as [|e ev IH]; simpl; [lia|]. destruct e; auto.
  destruct (N.eqb_spec p0 p); [subst; auto|]. auto.
Qed.
Lemma in_frees p ev : In (EFree p) ev -> (0 < frees p ev)%nat.
Proof.
  unfold frees. induction ev as [|e ev IH]; simpl; [intros []|]. intros [->|H].
  - rewrite N.eqb_refl. simpl. lia.
  - specialize (IH H). destruct e; auto. destruct (p0 =? p); simpl; lia.
Qed.
Lemma finals_pos p ev : finals p ev <> [] -> exists d, In (EFinal d p) ev.
Proof.
  unfold finals. induction ev as [|e ev IH]; simpl; [congruence|]. destruct e; simpl.
  - intros H. destruct (IH H); eauto.
  - destruct (N.eqb_spec p0 p); [subst; eauto|]. intros H. destruct (IH H); eauto.
  - intros H. destruct (IH H); eauto.
Qed.
Lemma in_finals d p ev : In (EFinal d p) ev -> finals p ev <> [].
Proof.
  unfold finals. induction ev as [|e ev IH]; simpl; [intros []|]. intros [->|H].
  - rewrite N.eqb_refl. discriminate.
  - specialize (IH H). destruct e; auto. destruct (p0 =? p); simpl; [discriminate|auto].
Qed.

(** Over a series of collections: a block is freed at most once, with its
    finalizer, and exactly when it disappears. *)
Lemma colls_count E stk g g' ev : colls E stk g g' ev -> wf E g -> forall b, In b (blocks g) ->
  In b (blocks g') /\ frees (rptr b) ev = 0%nat /\ finals (rptr b) ev = [] \/
  ~ In b (blocks g') /\ frees (rptr b) ev = 1%nat /\
    finals (rptr b) ev = match rdtor b with Some d => [d] | None => [] end.
Proof.
  induction 1 as [g|g g1 g2 e1 e2 H1 H2 IH]; intros W b Hb; [left; auto|].
  destruct (coll_step _ _ _ _ _ W H1) as (W1 & _ & _ & A4 & _ & f & A6 & _).
  destruct (coll_events _ _ _ _ _ W H1 b Hb) as [C1 C2].
  rewrite frees_app, finals_app.
  assert (Dec : reach E (mem g) (blocks g) stk b \/ ~ reach E (mem g) (blocks g) stk b).
  { rewrite <- (A6 b Hb). destruct (f (rptr b)); auto. }
  destruct Dec as [R|R].
  - destruct (C2 R) as [-> ->]. cbn [app Nat.add]. apply IH; auto. apply A4; auto.
  - destruct (C1 R) as [-> ->].
    assert (Nin : forall c, In c (blocks g1) -> rptr c <> rptr b).
    { intros c Hc Hp. apply A4 in Hc. apply R.
      assert (c = b) as <- by (exact (in_uniq _ _ _ _ W (reach_in _ _ _ _ _ Hc) Hb Hp)). auto. }
    destruct (colls_ok _ _ _ _ _ H2 W1) as (_ & _ & B3 & _).
    right. split; [intros Hc; apply B3 in Hc as [Hc _]; apply (Nin b); auto|].
    assert (Z : frees (rptr b) e2 = 0%nat /\ finals (rptr b) e2 = []).
    { split.
      - destruct (frees (rptr b) e2) eqn:X; auto. exfalso.
        assert (Hin : In (EFree (rptr b)) e2) by (apply frees_pos; lia).
        destruct (colls_events _ _ _ _ _ H2 W1 _ _ Hin (or_introl eq_refl)) as [(c & Hc & Hp) _].
        apply (Nin c); auto.
      - destruct (finals (rptr b) e2) eqn:X; auto. exfalso.
        destruct (finals_pos (rptr b) e2) as (d & Hin); [rewrite X; discriminate|].
        assert (Q : EFinal d (rptr b) = EFree (rptr b) \/ (exists d', EFinal d (rptr b) = EFinal d' (rptr b))) by eauto.
        destruct (colls_events _ _ _ _ _ H2 W1 _ _ Hin Q) as [(c & Hc & Hp) _]. apply (Nin c); auto. }
    destruct Z as [-> ->]. rewrite app_nil_r. auto.
Qed.

(** ** The live blocks, from the history alone *)
Definition live := list (N * N).    (* address and size *)
Definition drop_freed (ev : list event) (l : live) : live :=
  filter (fun b => Nat.eqb (frees (fst b) ev) 0) l.
Definition drop (p : N) (l : live) : live := filter (fun b => negb (fst b =? p)) l.
Definition lstep (o : op) (x : N) (ev : list event) (l : live) : live :=
  let l' := drop_freed ev l in
  match o with
  | OAlloc size _ _ _ _ _ => (x, size) :: l'
  | OCalloc nmem size _ _ _ _ _ => (x, (nmem * size) mod two64) :: l'
  | ORealloc p size _ _ _ _ _ =>
      if size =? 0 then l' else
      if existsb (fun b => fst b =? p) l then
        (if x =? 0 then drop p l' else (x, size) :: drop p l')
      else (x, size) :: l'
  | _ => l'
  end.
Fixpoint lives (os : list op) (xs : list (N * list event)) (l : live) : live :=
  match os, xs with
  | o :: r, (x, ev) :: ys => lives r ys (lstep o x ev l)
  | _, _ => l
  end.
Definition key (r : rec) : N * N := (rptr r, rsize r).

Lemma filter_perm {A} (f : A -> bool) l l' : Permutation l l' -> Permutation (filter f l) (filter f l').
Proof.
  induction 1; simpl; auto.
  - destruct (f x); auto.
  - destruct (f x), (f y); auto. constructor.
  - etransitivity; eauto.
Qed.
Lemma filter_map {A B} (h : A -> B) f l : filter f (map h l) = map h (filter (fun x => f (h x)) l).
Proof. induction l; simpl; auto. destruct (f (h a)); simpl; rewrite IHl; auto. Qed.
Lemma NoDup_of_map {A B} (h : A -> B) l : NoDup (map h l) -> NoDup l.
Proof. apply NoDup_map_inv. Qed.

Lemma Permutation_refl_eq {A} (l l' : list A) : l = l' -> Permutation l l'.
Proof. intros ->; auto. Qed.

Lemma colls_live E stk g g' ev : colls E stk g g' ev -> wf E g ->
  Permutation (blocks g') (filter (fun b => Nat.eqb (frees (rptr b) ev) 0) (blocks g)).
Proof.
  intros C W. destruct (colls_ok _ _ _ _ _ C W) as (W' & _ & B3 & _). apply NoDup_Permutation.
  - eapply NoDup_of_map, nodup_ptr; eauto.
  - apply NoDup_filter. eapply NoDup_of_map, nodup_ptr; eauto.
  - intros b. rewrite filter_In, Nat.eqb_eq. split.
    + intros Hb. destruct (B3 b Hb) as [Hb' _]. split; auto.
      destruct (colls_count _ _ _ _ _ C W b Hb') as [(_ & X & _)|(X & _)]; [auto|contradiction].
    + intros [Hb Hz]. destruct (colls_count _ _ _ _ _ C W b Hb) as [(X & _)|(_ & X & _)]; [auto|congruence].
Qed.

Lemma drop_freed_nil l : drop_freed [] l = l.
Proof. apply filter_id. reflexivity. Qed.

Lemma map_key_raise q r l : map key (map (raise_root q r) l) = map key l.
Proof. rewrite map_map. apply map_ext. intros b. unfold key. rewrite raise_ptr, raise_size. auto. Qed.

Lemma drop_freed_map ev bl : drop_freed ev (map key bl) =
  map key (filter (fun b => Nat.eqb (frees (rptr b) ev) 0) bl).
Proof. unfold drop_freed. rewrite filter_map. reflexivity. Qed.
Lemma drop_map p bl : drop p (map key bl) = map key (others p bl).
Proof. unfold drop. rewrite filter_map. reflexivity. Qed.
Lemma filter_comm {A} (f h : A -> bool) l : filter f (filter h l) = filter h (filter f l).
Proof.
  induction l as [|x l IH]; simpl; auto.
  destruct (h x) eqn:X, (f x) eqn:Y; simpl; rewrite ?X, ?Y, ?IH; auto.
Qed.

Lemma step_live E g o g' x ev l : good_env E -> op_ok o -> wf E g -> step E g o = Some (g', x, ev) ->
  Permutation (map key (blocks g)) l -> Permutation (map key (blocks g')) (lstep o x ev l).
Proof.
  intros GE OK W H P.
  assert (PF : Permutation (drop_freed ev (map key (blocks g))) (drop_freed ev l)) by (apply filter_perm; auto).
  assert (Al : forall f size d k t1 t2 stk, GC_alloc E f g size d k t1 t2 stk = Some (g', x, ev) ->
    size + header < two64 -> Permutation (map key (blocks g')) ((x, size) :: drop_freed ev l)).
  { intros f size d k t1 t2 stk HA Hs.
    destruct (alloc_ok _ _ _ _ _ _ _ _ _ _ _ _ GE W Hs HA) as (g1 & C & _ & P1 & _).
    rewrite P1. cbn [map]. unfold key at 1. cbn [rptr rsize]. constructor.
    rewrite <- PF, drop_freed_map. apply Permutation_map. eapply colls_live; eauto. }
  assert (Free : forall p e1, GC_free E g p = (g', e1) -> Permutation (map key (blocks g')) (drop_freed e1 l)).
  { intros p e1 F. destruct (registered_dec (blocks g) p) as [R|R].
    - destruct (free_some E g p W R) as (g2 & r & q & A1 & A2 & A3 & A4 & A5 & _).
      rewrite A1 in F. inversion F; subst g2 e1.
      rewrite A5, map_key_raise, <- drop_map.
      assert (DF : drop_freed [EFree p] l = drop p l).
      { unfold drop, drop_freed. apply filter_ext. intros b.
        unfold frees. cbn [filter length]. rewrite N.eqb_sym. destruct (fst b =? p); auto. }
      rewrite DF. apply filter_perm; auto.
    - rewrite (free_none E g p W R) in F. inversion F; subst. rewrite drop_freed_nil. auto. }
  assert (Nil : g' = g -> ev = [] -> Permutation (map key (blocks g')) (drop_freed ev l)).
  { intros -> ->. rewrite drop_freed_nil. auto. }
  destruct o; cbn [step op_ok] in *; unfold lstep.
  - eapply Al; eauto.
  - eapply Al; eauto.
  - destruct (N.eqb_spec size 0) as [->|Hz].
    + unfold GC_realloc in H. cbn [N.eqb] in H. destruct (GC_free E g p) as [g1 e1] eqn:F.
      inversion H; subst. eapply Free; eauto.
    + destruct (registered_dec (blocks g) p) as [R|R].
      * destruct (existsb (fun b => fst b =? p) l) eqn:X.
        2:{ exfalso. destruct R as (b & Hb & Hbp).
            assert (Y : existsb (fun b => fst b =? p) l = true); [|congruence].
            apply existsb_exists. exists (key b). split; [|cbn; apply N.eqb_eq; auto].
            eapply Permutation_in; [exact P|]. apply in_map; auto. }
        destruct (realloc_ok _ _ _ _ _ _ _ _ _ _ _ _ GE W OK Hz R H)
          as (g1 & g2 & r & q & A1 & A2 & A3 & A4 & A5 & A6 & A7 & A8 & A9 & C & W' & K & Cases & S).
        assert (P2 : Permutation (map key (blocks g2)) (drop p (drop_freed ev l))).
        { rewrite (colls_live _ _ _ _ _ C A4).
          rewrite <- drop_freed_map.
          assert (Y : Permutation (map key (blocks g1)) (drop p l)).
          { rewrite A5, map_key_raise, <- drop_map. apply filter_perm; auto. }
          etransitivity; [apply filter_perm; exact Y|].
          unfold drop_freed, drop. rewrite filter_comm. reflexivity. }
        destruct Cases as [[-> ->]|(Hx & P3 & _)].
        -- cbn [N.eqb]. exact P2.
        -- rewrite (proj2 (N.eqb_neq x 0)) by (unfold header in Hx; lia).
           rewrite P3. cbn [map]. unfold key at 1. cbn [rptr rsize]. constructor. exact P2.
      * destruct (existsb (fun b => fst b =? p) l) eqn:X.
        { exfalso. apply existsb_exists in X as (b & Hb & Hbp). apply N.eqb_eq in Hbp.
          apply (Permutation_in _ (Permutation_sym P)) in Hb. apply in_map_iff in Hb as (c & <- & Hc).
          apply (R c); auto. }
        rewrite realloc_alloc in H by auto. eapply Al; eauto.
  - destruct (GC_free E g p) as [g1 e1] eqn:F. inversion H; subst. eapply Free; eauto.
  - destruct (gc_collect E g stk) as [[g1 e1]|] eqn:F; inversion H; subst.
    rewrite <- PF, drop_freed_map. apply Permutation_map. eapply colls_live; [apply colls_one; exact F|exact W].
  - inversion H; subst. destruct (register_ok E g p (with_dtor d) W) as (_ & B & _); auto.
    rewrite B, drop_freed_nil, map_map. rewrite <- P. apply (Permutation_refl_eq _ _), map_ext. intros b.
    destruct (rptr b =? p); auto.
  - inversion H; subst. destruct (register_ok E g p (with_mrk k) W) as (_ & B & _); auto.
    rewrite B, drop_freed_nil, map_map. rewrite <- P. apply (Permutation_refl_eq _ _), map_ext. intros b.
    destruct (rptr b =? p); auto.
  - inversion H; subst. destruct (register_ok E g p (with_root true) W) as (_ & B & _); auto.
    rewrite B, drop_freed_nil, map_map. rewrite <- P. apply (Permutation_refl_eq _ _), map_ext. intros b.
    destruct (rptr b =? p); auto.
  - inversion H; subst. rewrite drop_freed_nil. exact P.
  - inversion H; subst. rewrite drop_freed_nil. exact P.
  - inversion H; subst. apply Nil; auto.
  - destruct (reachable_ok E g stk W) as (n & f & A & _). rewrite A in H. inversion H; subst. apply Nil; auto.
  - destruct (reachable_ok E g stk W) as (n & f & A & _). rewrite A in H. inversion H; subst. apply Nil; auto.
  - inversion H; subst. rewrite drop_freed_nil. exact P.
Qed.

Lemma run_live E : good_env E -> forall os g g' xs l, Forall op_ok os -> wf E g -> run E g os = Some (g', xs) ->
  Permutation (map key (blocks g)) l -> Permutation (map key (blocks g')) (lives os xs l).
Proof.
  intros GE. induction os as [|o os IH]; intros g g' xs l F W H P; cbn [run] in H.
  - inversion H; subst; auto.
  - inversion F as [|? ? F1 F2]; subst. destruct (step E g o) as [[[g1 x] ev]|] eqn:S; [|discriminate].
    destruct (run E g1 os) as [[g2 ys]|] eqn:R; [|discriminate]. inversion H; subst. cbn [lives].
    eapply IH; [assumption| |exact R|].
    + eapply step_wf; eauto.
    + eapply step_live; eauto.
Qed.

(** ** Allocation since the last collection, from the history alone *)
Definition handed (o : op) (x : N) : N :=
  match o with
  | OAlloc size _ _ _ _ _ => size
  | OCalloc nmem size _ _ _ _ _ => (nmem * size) mod two64
  | ORealloc _ size _ _ _ _ _ => if (size =? 0) || (x =? 0) then 0 else size
  | _ => 0
  end.
Definition collects (ev : list event) : bool := existsb (fun e => match e with ECollect => true | _ => false end) ev.
Fixpoint since (os : list op) (xs : list (N * list event)) (s : N) : N :=
  match os, xs with
  | o :: r, (x, ev) :: ys => since r ys ((if collects ev then 0 else s) + handed o x)
  | _, _ => s
  end.
Fixpoint paused (os : list op) (b : bool) : bool :=
  match os with
  | [] => b
  | OPause :: r => paused r true
  | OResume :: r => paused r false
  | _ :: r => paused r b
  end.

Lemma collects_in ev : collects ev = true <-> In ECollect ev.
Proof.
  unfold collects. rewrite existsb_exists. split.
  - intros (e & H & X). destruct e; try discriminate; auto.
  - intros H. exists ECollect. auto.
Qed.

Lemma step_flag E g o g' x ev : good_env E -> op_ok o -> wf E g -> step E g o = Some (g', x, ev) ->
  collecting g' = negb (paused [o] (negb (collecting g))) /\
  dirty g' = ((if collects ev then 0 else dirty g) + handed o x) mod two64 \/ two64 <= dirty g.
Proof.
  intros GE OK W H. destruct (N.ltb_spec (dirty g) two64) as [D|D]; [left|right; auto].
  assert (Cd : forall stk g1 g2 e, colls E stk g1 g2 e -> wf E g1 -> dirty g1 = dirty g ->
    dirty g2 = if collects e then 0 else dirty g).
  { intros stk g1 g2 e C W1 Hd. destruct (colls_ok _ _ _ _ _ C W1) as (_ & _ & _ & _ & [[-> ->]|(X & Y & _)]); auto.
    apply collects_in in X. rewrite X. auto. }
  assert (Al : forall f size d k t1 t2 stk, GC_alloc E f g size d k t1 t2 stk = Some (g', x, ev) ->
    size + header < two64 -> collecting g' = collecting g /\
    dirty g' = ((if collects ev then 0 else dirty g) + size) mod two64 /\ x <> 0).
  { intros f size d k t1 t2 stk HA Hs.
    destruct (alloc_ok _ _ _ _ _ _ _ _ _ _ _ _ GE W Hs HA) as (g1 & C & _ & _ & A1 & A2 & _ & A3 & _).
    rewrite <- (Cd _ _ _ _ C W eq_refl). split; auto. split; auto. unfold header in A3. lia. }
  assert (Free : forall p g1 e1, GC_free E g p = (g1, e1) -> collecting g1 = collecting g /\
    dirty g1 = ((if collects e1 then 0 else dirty g) + 0) mod two64).
  { intros p g1 e1 F. rewrite N.add_0_r. destruct (registered_dec (blocks g) p) as [R|R].
    - destruct (free_some E g p W R) as (g2 & r & q & A1 & A2 & A3 & A4 & A5 & A6 & A7 & _).
      rewrite A1 in F. inversion F; subst g2 e1. split; auto. cbn. rewrite A6, N.mod_small; auto.
    - rewrite (free_none E g p W R) in F. inversion F; subst. split; auto. cbn. rewrite N.mod_small; auto. }
  assert (NN : forall b, negb (negb b) = b) by (intros []; auto).
  assert (Pl : collecting g' = collecting g -> dirty g' = dirty g -> ev = [] -> handed o x = 0 ->
    paused [o] (negb (collecting g)) = negb (collecting g) ->
    collecting g' = negb (paused [o] (negb (collecting g))) /\
    dirty g' = ((if collects ev then 0 else dirty g) + handed o x) mod two64).
  { intros -> -> -> -> ->. rewrite NN. cbn [collects existsb]. rewrite N.add_0_r, N.mod_small; auto. }
  destruct o; cbn [step op_ok] in *.
  - cbn [paused handed]. rewrite NN. destruct (Al _ _ _ _ _ _ _ H OK) as (X & Y & _). auto.
  - cbn [paused handed]. rewrite NN. destruct (Al _ _ _ _ _ _ _ H OK) as (X & Y & _). auto.
  - cbn [paused handed]. rewrite NN. destruct (N.eqb_spec size 0) as [->|Hz]; cbn [orb].
    + unfold GC_realloc in H. cbn [N.eqb] in H. destruct (GC_free E g p) as [g1 e1] eqn:F.
      inversion H; subst. eapply Free; eauto.
    + destruct (registered_dec (blocks g) p) as [R|R].
      * destruct (realloc_ok _ _ _ _ _ _ _ _ _ _ _ _ GE W OK Hz R H)
          as (g1 & g2 & r & q & A1 & A2 & A3 & A4 & A5 & A6 & A7 & A8 & A9 & C & W' & K & Cases & S).
        split; [auto|]. rewrite <- (Cd _ _ _ _ C A4 A7). destruct Cases as [[-> ->]|(Hx & _ & A10 & _)].
        -- cbn [N.eqb]. rewrite N.add_0_r, N.mod_small; auto. rewrite (Cd _ _ _ _ C A4 A7).
           destruct (collects ev); [unfold two64; lia|auto].
        -- rewrite (proj2 (N.eqb_neq x 0)) by (unfold header in Hx; lia). auto.
      * rewrite realloc_alloc in H by auto. destruct (Al _ _ _ _ _ _ _ H OK) as (X & Y & Z).
        rewrite (proj2 (N.eqb_neq x 0)) by auto. auto.
  - cbn [paused handed]. rewrite NN. destruct (GC_free E g p) as [g1 e1] eqn:F. inversion H; subst. eapply Free; eauto.
  - cbn [paused handed]. rewrite NN. destruct (gc_collect E g stk) as [[g1 e1]|] eqn:F; inversion H; subst.
    rewrite N.add_0_r. rewrite <- (Cd _ _ _ _ (colls_one _ _ _ _ _ F) W eq_refl).
    destruct (coll_step _ _ _ _ _ W F) as (_ & B1 & B2 & _). rewrite B1. auto.
  - inversion H; subst. destruct (register_ok E g p (with_dtor d) W) as (_ & _ & B1 & B2 & _); auto.
  - inversion H; subst. destruct (register_ok E g p (with_mrk k) W) as (_ & _ & B1 & B2 & _); auto.
  - inversion H; subst. destruct (register_ok E g p (with_root true) W) as (_ & _ & B1 & B2 & _); auto.
  - inversion H; subst. cbn. rewrite N.add_0_r, N.mod_small; auto.
  - inversion H; subst. cbn. rewrite N.add_0_r, N.mod_small; auto.
  - inversion H; subst. auto.
  - destruct (reachable_ok E g stk W) as (n & f & A & _). rewrite A in H. inversion H; subst. auto.
  - destruct (reachable_ok E g stk W) as (n & f & A & _). rewrite A in H. inversion H; subst. auto.
  - inversion H; subst. auto.
Qed.

Lemma run_flag E : good_env E -> forall os g g' xs s b, Forall op_ok os -> wf E g -> run E g os = Some (g', xs) ->
  dirty g = s mod two64 -> collecting g = negb b ->
  dirty g' = since os xs s mod two64 /\ collecting g' = negb (paused os b).
Proof.
  intros GE. induction os as [|o os IH]; intros g g' xs s b F W H Hd Hc; cbn [run] in H.
  - inversion H; subst; auto.
  - inversion F as [|? ? F1 F2]; subst. destruct (step E g o) as [[[g1 x] ev]|] eqn:S; [|discriminate].
    destruct (run E g1 os) as [[g2 ys]|] eqn:R; [|discriminate]. inversion H; subst. cbn [since].
    assert (Z : two64 <> 0) by discriminate.
    destruct (step_flag _ _ _ _ _ _ GE F1 W S) as [[A B]|X].
    2:{ exfalso. rewrite Hd in X. pose proof (N.mod_lt s two64 Z). lia. }
    rewrite Hc, negb_involutive in A.
    assert (C : paused (o :: os) b = paused os (paused [o] b)) by (destruct o; reflexivity).
    rewrite C. eapply IH; [assumption| |exact R| |].
    + eapply step_wf; eauto.
    + rewrite B. destruct (collects ev); auto. rewrite Hd. rewrite N.add_mod_idemp_l; auto.
    + rewrite A. auto.
Qed.

(** ** When an allocation collects *)
Lemma alloc_collects E f g size d k t1 t2 stk g' x ev : wf E g ->
  GC_alloc E f g size d k t1 t2 stk = Some (g', x, ev) ->
  (forall g1 n, malloc E t1 g1 n <> None) ->
  (In ECollect ev <-> collecting g = true /\ threshold < dirty g).
Proof.
  intros W H M. unfold GC_alloc in H.
  destruct (gc_collect_if_needed E g stk) as [[g1 ev1]|] eqn:H1; [|discriminate].
  destruct (gc_alloc_record E f g1 size d k t1 t2 stk) as [[[g2 [r|]] ev2]|] eqn:H2; try discriminate.
  assert (ev2 = []) as ->.
  { unfold gc_alloc_record in H2. destruct (malloc E t1 g1 _) eqn:Hm; [congruence|]. exfalso. eapply M; eauto. }
  destruct (gc_add_record g2 r); [|discriminate]. inversion H; subst; clear H. rewrite app_nil_r.
  unfold gc_collect_if_needed in H1. destruct (collecting g) eqn:Cg; cbn [andb] in H1.
  - destruct (N.ltb_spec threshold (dirty g)).
    + destruct (coll_step _ _ _ _ _ W H1) as (_ & _ & _ & _ & _ & f0 & _ & ->). split; auto. intros _. left; auto.
    + inversion H1; subst. split; [intros []|]. intros [_ ?]. lia.
  - inversion H1; subst. split; [intros []|]. intros [? _]. discriminate.
Qed.

(** ** No operation gets stuck short of memory exhaustion *)
Lemma alloc_total E f g size d k t1 t2 stk : good_env E -> wf E g -> size + header < two64 ->
  GC_alloc E f g size d k t1 t2 stk = None -> exists g1, malloc E t2 g1 (size + header) = None.
Proof.
  intros GE W Hs H. unfold GC_alloc in H.
  assert (X : exists g1 e1, gc_collect_if_needed E g stk = Some (g1, e1) /\ wf E g1).
  { unfold gc_collect_if_needed. destruct (_ && _); [|eauto].
    destruct (collect_ok E g stk W) as (g1 & f1 & A & _ & B & _). eauto. }
  destruct X as (g1 & e1 & X & W1). rewrite X in H.
  unfold gc_alloc_record in H. rewrite N.mod_small in H by auto.
  destruct (malloc E t1 g1 (size + header)) as [a|] eqn:M1.
  - exfalso. pose proof (ge_malloc _ GE _ _ _ _ M1) as Rm.
    assert (Rm' : room E g1 ((size + header) mod two64) a) by (rewrite N.mod_small; auto).
    destruct (room_ok _ _ _ _ Rm' Hs d k false) as (R1 & R2).
    match type of H with match gc_add_record ?y ?z with _ => _ end = _ =>
      destruct (add_ok E y z) as (g3 & A1 & _); auto; [apply wf_irrel; auto|] end.
    rewrite A1 in H. discriminate.
  - destruct (collect_ok E g1 stk W1) as (g2 & f1 & A & _ & B & _). rewrite A in H.
    destruct (malloc E t2 g2 (size + header)) as [a|] eqn:M2; [|eauto].
    exfalso. pose proof (ge_malloc _ GE _ _ _ _ M2) as Rm.
    assert (Rm' : room E g2 ((size + header) mod two64) a) by (rewrite N.mod_small; auto).
    destruct (room_ok _ _ _ _ Rm' Hs d k false) as (R1 & R2).
    match type of H with match gc_add_record ?y ?z with _ => _ end = _ =>
      destruct (add_ok E y z) as (g3 & A1 & _); auto; [apply wf_irrel; auto|] end.
    rewrite A1 in H. discriminate.
Qed.

Lemma realloc_total E g p size d k t1 t2 stk : good_env E -> wf E g -> size + header < two64 -> size <> 0 ->
  (exists b, In b (blocks g) /\ rptr b = p) -> GC_realloc E g p size d k t1 t2 stk <> None.
Proof.
  intros GE W Hs Hz Hex H. unfold GC_realloc in H. rewrite (proj2 (N.eqb_neq _ _) Hz) in H.
  assert (Hp : p <> 0).
  { destruct Hex as (b & Hb & <-). destruct (in_ok _ _ _ W Hb) as (B & _). unfold header in B. lia. }
  rewrite (proj2 (N.eqb_neq _ _) Hp) in H.
  destruct (find_rec (buckets g) p) eqn:F.
  2:{ exfalso. destruct Hex as (b & Hb & Hbp). eapply find_rec_none; eauto. apply W. }
  destruct (remove_some E g p W Hex) as (g1 & o & q & A1 & A2 & A3 & A4 & _).
  rewrite A1 in H. unfold gc_realloc_record in H. rewrite N.mod_small in H by auto.
  assert (Add : forall t g2 a m, wf E g2 -> realloc E t g2 (rptr o - header) (size + header) = Some a ->
    gc_add_record (mkgc (buckets g2) (ap g2) (gsize g2) (allocs g2) (dirty g2) (collecting g2) m)
      (mkrec (a + header) size d k false (rroot o)) <> None).
  { intros t g2 a m W2 M. pose proof (ge_realloc _ GE _ _ _ _ _ M) as Rm.
    assert (Rm' : room E g2 ((size + header) mod two64) a) by (rewrite N.mod_small; auto).
    destruct (room_ok _ _ _ _ Rm' Hs d k (rroot o)) as (R1 & R2).
    match goal with |- gc_add_record ?y ?z <> None =>
      destruct (add_ok E y z) as (g3 & B1 & _); auto; [apply wf_irrel; auto|] end.
    rewrite B1. discriminate. }
  destruct (realloc E t1 g1 (rptr o - header) (size + header)) as [a|] eqn:M1.
  - match type of H with match gc_add_record ?y ?z with _ => _ end = _ =>
      destruct (gc_add_record y z) eqn:Z; [discriminate|]; eapply Add in Z; eauto end.
  - destruct (collect_ok E g1 stk A4) as (g2 & f1 & A & _ & B & _). rewrite A in H.
    destruct (realloc E t2 g2 (rptr o - header) (size + header)) as [a|] eqn:M2; [|discriminate].
    match type of H with match gc_add_record ?y ?z with _ => _ end = _ =>
      destruct (gc_add_record y z) eqn:Z; [discriminate|]; eapply Add in Z; eauto end.
Qed.

Lemma step_total E g o : good_env E -> op_ok o -> wf E g -> step E g o = None ->
  exists t g1 n, malloc E t g1 n = None.
Proof.
  intros GE OK W H. destruct o; cbn [step op_ok] in *; try discriminate.
  - destruct (alloc_total _ _ _ _ _ _ _ _ _ GE W OK H); eauto.
  - destruct (alloc_total _ _ _ _ _ _ _ _ _ GE W OK H); eauto.
  - destruct (N.eq_dec size 0) as [->|Hz].
    + unfold GC_realloc in H. cbn [N.eqb] in H. destruct (GC_free E g p); discriminate.
    + destruct (registered_dec (blocks g) p) as [R|R].
      * exfalso. eapply realloc_total; eauto.
      * rewrite realloc_alloc in H by auto. destruct (alloc_total _ _ _ _ _ _ _ _ _ GE W OK H); eauto.
  - destruct (GC_free E g p); discriminate.
  - destruct (collect_ok E g stk W) as (g2 & f1 & A & _). rewrite A in H. discriminate.
  - destruct (reachable_ok E g stk W) as (n & f & A & _). rewrite A in H. discriminate.
  - destruct (reachable_ok E g stk W) as (n & f & A & _). rewrite A in H. discriminate.
Qed.

(** ** Histories *)
Lemma run_app E os1 : forall os2 g g' xs, run E g (os1 ++ os2) = Some (g', xs) ->
  exists g1 xs1 xs2, run E g os1 = Some (g1, xs1) /\ run E g1 os2 = Some (g', xs2) /\ xs = xs1 ++ xs2.
Proof.
  induction os1 as [|o os1 IH]; intros os2 g g' xs H; cbn [run app] in *.
  - exists g, [], xs. auto.
  - destruct (step E g o) as [[[g0 x] ev]|]; [|discriminate].
    destruct (run E g0 (os1 ++ os2)) as [[g2 ys]|] eqn:R; [|discriminate]. inversion H; subst.
    destruct (IH _ _ _ _ R) as (g1 & xs1 & xs2 & A & B & ->). exists g1, ((x, ev) :: xs1), xs2.
    rewrite A. auto.
Qed.

(** A root stays a root. *)
Lemma step_root E g o g' x ev p : good_env E -> op_ok o -> wf E g -> step E g o = Some (g', x, ev) ->
  (exists b, In b (blocks g) /\ rptr b = p /\ rroot b = true) -> ~ releases o p ->
  exists b, In b (blocks g') /\ rptr b = p /\ rroot b = true.
Proof.
  intros GE OK W H (b & Hb & Hp & Hr) Hn.
  destruct (step_keeps E g o g' x ev b GE OK W H Hb) as (b' & A & (B1 & _ & _ & _ & B5) & _).
  - congruence.
  - intros _. apply reach_root; auto. unfold seen. destruct o; auto. apply in_others.
    split; auto. cbn in Hn. congruence.
  - exists b'. split; auto. split; [congruence|auto].
Qed.
Lemma run_root E p : good_env E -> forall os g g' xs, Forall op_ok os -> wf E g -> run E g os = Some (g', xs) ->
  (exists b, In b (blocks g) /\ rptr b = p /\ rroot b = true) -> (forall o, In o os -> ~ releases o p) ->
  exists b, In b (blocks g') /\ rptr b = p /\ rroot b = true.
Proof.
  intros GE. induction os as [|o os IH]; intros g g' xs F W H Hb Hn; cbn [run] in H.
  - inversion H; subst; auto.
  - inversion F as [|? ? F1 F2]; subst. destruct (step E g o) as [[[g1 x] ev]|] eqn:S; [|discriminate].
    destruct (run E g1 os) as [[g2 ys]|] eqn:R; [|discriminate]. inversion H; subst.
    eapply IH; [assumption| |exact R| |].
    + eapply step_wf; eauto.
    + eapply step_root; eauto. apply Hn; left; auto.
    + intros o' Ho'. apply Hn. right; auto.
Qed.

(** An address that is not registered is left alone until it is handed out. *)
Lemma run_quiet E p : good_env E -> forall os g g' xs, Forall op_ok os -> wf E g -> run E g os = Some (g', xs) ->
  (forall b, In b (blocks g) -> rptr b <> p) -> (forall x ev, In (x, ev) xs -> x <> p) ->
  forall x ev, In (x, ev) xs -> frees p ev = 0%nat /\ finals p ev = [].
Proof.
  intros GE. induction os as [|o os IH]; intros g g' xs F W H Hb Hx y e Hin; cbn [run] in H.
  - inversion H; subst. destruct Hin.
  - inversion F as [|? ? F1 F2]; subst. destruct (step E g o) as [[[g1 x] ev]|] eqn:S; [|discriminate].
    destruct (run E g1 os) as [[g2 ys]|] eqn:R; [|discriminate]. inversion H; subst.
    assert (Hne : x <> p) by (eapply Hx; left; auto).
    destruct Hin as [[= -> ->]|Hin].
    + split.
      * destruct (frees p e) eqn:Z; auto. exfalso.
        assert (Hf : In (EFree p) e) by (apply frees_pos; lia).
        destruct (step_frees _ _ _ _ _ _ _ _ GE F1 W S Hf (or_introl eq_refl)) as [(b & B1 & B2) _].
        eapply Hb; eauto.
      * destruct (finals p e) eqn:Z; auto. exfalso.
        destruct (finals_pos p e) as (d & Hf); [rewrite Z; discriminate|].
        assert (Q : EFinal d p = EFree p \/ (exists d', EFinal d p = EFinal d' p)) by eauto.
        destruct (step_frees _ _ _ _ _ _ _ _ GE F1 W S Hf Q) as [(b & B1 & B2) _].
        eapply Hb; eauto.
    + eapply IH; [assumption| |exact R| | |exact Hin].
      * eapply step_wf; eauto.
      * intros b Hb1 Hp. destruct (step_origin _ _ _ _ _ _ _ GE F1 W S Hb1) as [Hq|(c & C1 & C2 & _)].
        -- congruence.
        -- apply (Hb c); auto. congruence.
      * intros x' ev' Hin'. apply (Hx x' ev'). right; auto.
Qed.
