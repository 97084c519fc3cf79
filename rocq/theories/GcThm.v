(** C39-C43: the garbage collector.

    [run E (gc_create m) os] is any history [os] of the interface of gc.h on a
    fresh collector; [good_env] (GcProofs.v) says what is assumed of the C
    library's allocator, and [op_ok] that requested sizes do not wrap around. *)
From Coq Require Import ZArith NArith Bool Ascii String List Lia Permutation.
From Verif Require Import Base Hashtable HashtableProofs SymbolProofs Gc GcProofs.
Import ListNotations.
Local Open Scope N_scope.
Local Open Scope list_scope.

(** A state the collector can be in. *)
Definition history (E : genv) (m : N -> N) (os : list op) (g : gc) (xs : list (N * list event)) : Prop :=
  good_env E /\ Forall op_ok os /\ run E (gc_create m) os = Some (g, xs).

Lemma history_wf E m os g xs : history E m os g xs -> wf E g.
Proof. intros (A & B & C). eapply run_wf; eauto. apply create_wf. Qed.

(** ** C39 *)

(** No operation loses or alters a block that it was not asked to free or
    reallocate, unless the operation collects and the block is unreachable.  While
    a block is being reallocated its own references do not count ([seen]); see
    [C39_realloc_refuted]. *)
Theorem C39_reachable_kept_partial : forall E m os g xs o g' x ev b,
  history E m os g xs -> op_ok o -> step E g o = Some (g', x, ev) ->
  In b (blocks g) -> ~ releases o (rptr b) ->
  (In ECollect ev -> reach E (mem g) (seen o (blocks g)) (scanned o) b) ->
  exists b', In b' (blocks g') /\ rptr b' = rptr b /\ rsize b' = rsize b /\
    (rdtor b' = rdtor b \/ o = ORegDtor (rptr b) (rdtor b')) /\
    (rmrk b' = rmrk b \/ o = ORegMrk (rptr b) (rmrk b')) /\
    (~ writes_into o b -> forall a, rptr b <= a < rptr b + rsize b -> mem g' a = mem g a).
Proof.
  intros E m os g xs o g' x ev b H OK S Hb Hn HR. pose proof (history_wf _ _ _ _ _ H) as W.
  destruct (step_keeps _ _ _ _ _ _ _ (proj1 H) OK W S Hb Hn HR) as (b' & A & (B1 & B2 & B3 & B4 & _) & C).
  exists b'. auto 10.
Qed.

(** For an explicit collection: the reachable blocks are exactly the ones that
    remain, unchanged. *)
Theorem C39_collection_keeps_reachable : forall E m os g xs stk g' x ev b,
  history E m os g xs -> step E g (OCollect stk) = Some (g', x, ev) ->
  reach E (mem g) (blocks g) stk b ->
  In b (blocks g') /\ forall a, rptr b <= a < rptr b + rsize b -> mem g' a = mem g a.
Proof.
  intros E m os g xs stk g' x ev b H S R. pose proof (history_wf _ _ _ _ _ H) as W. cbn [step] in S.
  destruct (gc_collect E g stk) as [[g1 e1]|] eqn:F; inversion S; subst.
  destruct (coll_step _ _ _ _ _ W F) as (_ & _ & _ & A4 & A5 & _).
  apply A4 in R. split; auto. apply A5; auto.
Qed.

(** No operation gets stuck (marking terminates on every graph, the table never
    runs out of sizes) as long as memory is not exhausted. *)
Theorem C39_total : forall E m os g xs o, history E m os g xs -> op_ok o -> step E g o = None ->
  exists t g1 n, malloc E t g1 n = None.
Proof. intros. eapply step_total; eauto; [apply H|eapply history_wf; eauto]. Qed.

(** ** C40 *)

(** A collection removes the unreachable blocks, and frees each exactly once
    after running its finalizer exactly once; reachable blocks are neither freed
    nor finalized. *)
Theorem C40_unreachable_freed_once : forall E m os g xs stk g' x ev b,
  history E m os g xs -> step E g (OCollect stk) = Some (g', x, ev) -> In b (blocks g) ->
  ~ reach E (mem g) (blocks g) stk b ->
  (forall b', In b' (blocks g') -> rptr b' <> rptr b) /\ frees (rptr b) ev = 1%nat /\
  finals (rptr b) ev = match rdtor b with Some d => [d] | None => [] end.
Proof.
  intros E m os g xs stk g' x ev b H S Hb R. pose proof (history_wf _ _ _ _ _ H) as W. cbn [step] in S.
  destruct (gc_collect E g stk) as [[g1 e1]|] eqn:F; inversion S; subst.
  split; [|eapply coll_events; eauto].
  destruct (coll_step _ _ _ _ _ W F) as (_ & _ & _ & A4 & _).
  intros b' Hb' Hp. apply A4 in Hb'.
  assert (b' = b) as -> by (exact (in_uniq _ _ _ _ W (reach_in _ _ _ _ _ Hb') Hb Hp)). auto.
Qed.
Theorem C40_reachable_not_freed : forall E m os g xs stk g' x ev b,
  history E m os g xs -> step E g (OCollect stk) = Some (g', x, ev) ->
  reach E (mem g) (blocks g) stk b -> frees (rptr b) ev = 0%nat /\ finals (rptr b) ev = [].
Proof.
  intros E m os g xs stk g' x ev b H S R. pose proof (history_wf _ _ _ _ _ H) as W. cbn [step] in S.
  destruct (gc_collect E g stk) as [[g1 e1]|] eqn:F; inversion S; subst.
  eapply coll_events; eauto. eapply reach_in; eauto.
Qed.

(** The finalizer of a block runs before its memory is given back. *)
Theorem C40_final_before_free : forall E m os g xs stk g' x ev b d,
  history E m os g xs -> step E g (OCollect stk) = Some (g', x, ev) -> In b (blocks g) ->
  ~ reach E (mem g) (blocks g) stk b -> rdtor b = Some d ->
  exists ev1 ev2, ev = ev1 ++ EFinal d (rptr b) :: EFree (rptr b) :: ev2.
Proof.
  intros E m os g xs stk g' x ev b d H S Hb R Hd. pose proof (history_wf _ _ _ _ _ H) as W. cbn [step] in S.
  destruct (gc_collect E g stk) as [[g1 e1]|] eqn:F; inversion S; subst.
  destruct (coll_step _ _ _ _ _ W F) as (_ & _ & _ & _ & _ & f & A6 & ->).
  assert (Hin : In b (dropped f (blocks g))).
  { apply filter_In. split; auto. apply negb_true_iff. destruct (f (rptr b)) eqn:X; auto.
    apply A6 in X; auto. contradiction. }
  apply in_split in Hin as (l1 & l2 & ->). rewrite map_app, concat_app. cbn [map concat].
  unfold free_events at 2. rewrite Hd.
  exists (ECollect :: concat (map free_events l1)), (concat (map free_events l2)). reflexivity.
Qed.

(** Whatever the operation, only registered blocks are freed or finalized, and
    afterwards the address is no longer registered, unless this very operation
    handed it out again ... *)
Theorem C40_only_registered_freed : forall E m os g xs o g' x ev p,
  history E m os g xs -> op_ok o -> step E g o = Some (g', x, ev) ->
  frees p ev <> 0%nat \/ finals p ev <> [] ->
  (exists b, In b (blocks g) /\ rptr b = p) /\ ((exists b, In b (blocks g') /\ rptr b = p) -> x = p).
Proof.
  intros E m os g xs o g' x ev p H OK S [Hf|Hf]; pose proof (history_wf _ _ _ _ _ H) as W.
  - assert (Hin : In (EFree p) ev) by (apply frees_pos; lia).
    exact (step_frees _ _ _ _ _ _ _ _ (proj1 H) OK W S Hin (or_introl eq_refl)).
  - destruct (finals_pos _ _ Hf) as (d & Hin).
    refine (step_frees _ _ _ _ _ _ _ (EFinal d p) (proj1 H) OK W S Hin _). eauto.
Qed.
(** ... and an address that is not registered is not touched again until it is
    handed out again. *)
Theorem C40_no_second_free : forall E m os1 os2 g1 xs1 g2 xs2 p,
  history E m os1 g1 xs1 -> Forall op_ok os2 -> run E g1 os2 = Some (g2, xs2) ->
  (forall b, In b (blocks g1) -> rptr b <> p) -> (forall x ev, In (x, ev) xs2 -> x <> p) ->
  forall x ev, In (x, ev) xs2 -> frees p ev = 0%nat /\ finals p ev = [].
Proof. intros. eapply run_quiet; eauto; [apply H|eapply history_wf; eauto]. Qed.

(** GC_finalize finalizes and frees every remaining block once. *)
Theorem C40_finalize_frees_all : forall E m os g xs ev, history E m os g xs -> gc_destroy E g = Some ev ->
  forall b, In b (blocks g) -> frees (rptr b) ev = 1%nat /\
    finals (rptr b) ev = match rdtor b with Some d => [d] | None => [] end.
Proof.
  intros E m os g xs ev H D b Hb. pose proof (history_wf _ _ _ _ _ H) as W.
  assert (X : ev = concat (map free_events (blocks g))).
  { unfold gc_destroy, gc_sweep in D. unfold blocks at 1 in D. cbn [buckets allocs gsize mem ap collecting] in D.
    rewrite <- concat_map in D. fold (blocks g) in D.
    assert (G : forall l st, (forall r, In r l -> rmark r = false) ->
      snd (fold_left (sweep_one E) (map (with_root false) l) st) = snd st ++ concat (map free_events l)).
    { induction l as [|r l IH]; intros st Hm; cbn [map fold_left concat]; [rewrite app_nil_r; auto|].
      destruct st as [[[al sz] mm] e0]. unfold sweep_one at 2. cbn [rmark with_root].
      rewrite (Hm r) by (left; auto). rewrite IH by (intros y Hy; apply Hm; right; auto).
      cbn [snd]. rewrite <- app_assoc. reflexivity. }
    specialize (G (blocks g) (allocs g, gsize g, mem g, []) (fun r Hr => in_mark _ _ _ W Hr)).
    destruct (fold_left (sweep_one E) _ _) as [[[al sz] mm] e0]. cbn [snd app] in G. subst e0.
    destruct (gc_shrink_if_needed _); inversion D; auto. }
  rewrite X. apply frees_in; auto. eapply nodup_ptr; eauto.
Qed.
Theorem C40_finalize_total : forall E m os g xs, history E m os g xs -> gc_destroy E g <> None.
Proof.
  intros E m os g xs H. pose proof (history_wf _ _ _ _ _ H) as W. unfold gc_destroy, gc_sweep.
  destruct (fold_left _ _ _) as [[[al sz] mm] e0].
  match goal with |- context [gc_shrink_if_needed ?y] => set (g1 := y) end.
  destruct (wf_len _ _ W) as (a & Ha & Hl).
  destruct (shrink_ok g1 a) as (bs & n & b & A1 & _); auto.
  - unfold g1, gc_unmark. cbn [buckets]. rewrite !map_length. auto.
  - unfold g1, gc_unmark. cbn [buckets]. intros i r. rewrite !map_length. intros Hr.
    rewrite !map_map in Hr.
    set (u := fun l => map (with_mark false) (filter rmark (map (with_root false) l))) in Hr.
    change (@nil rec) with (u []) in Hr. rewrite map_nth in Hr. unfold u in Hr.
    apply in_map_iff in Hr as (r1 & <- & Hr1). apply filter_In in Hr1 as [Hr1 _].
    apply in_map_iff in Hr1 as (r2 & <- & Hr2). cbn [with_mark with_root rptr].
    apply (wf_place _ _ W). auto.
  - rewrite A1. discriminate.
Qed.

(** ** C41 *)

(** The registered blocks are those of the history: handed out and not freed
    since ([lives], GcProofs.v, looks only at calls, results and frees). *)
Theorem C41_registered_blocks : forall E m os g xs, history E m os g xs ->
  Permutation (map (fun b => (rptr b, rsize b)) (blocks g)) (lives os xs []).
Proof.
  intros E m os g xs (A & B & C).
  refine (run_live E A os (gc_create m) g xs [] B (create_wf E m) C _).
  unfold blocks, gc_create. cbn [buckets]. rewrite concat_repeat_nil'. reflexivity.
Qed.
(** GC_get_allocated is their total size, and the table's entry count their number. *)
Fixpoint total_live (l : live) : N := match l with [] => 0 | (_, n) :: r => n + total_live r end.
Theorem C41_allocated : forall E m os g xs, history E m os g xs ->
  step E g OAllocated = Some (g, total_live (lives os xs []), []) /\
  gsize g = N.of_nat (length (lives os xs [])).
Proof.
  intros E m os g xs H. pose proof (history_wf _ _ _ _ _ H) as W.
  pose proof (C41_registered_blocks _ _ _ _ _ H) as P. cbn [step].
  assert (T : forall l l', Permutation l l' -> total_live l = total_live l').
  { induction 1; cbn [total_live]; auto; try congruence.
    - destruct x. lia.
    - destruct x, y. lia. }
  rewrite <- (T _ _ P), <- (Permutation_length P), map_length, (wf_size _ _ W), (wf_allocs _ _ W).
  split; auto. f_equal. f_equal. f_equal. clear. induction (blocks g); simpl; auto. lia.
Qed.
(** GC_get_reachable is the total size of the reachable blocks and changes
    nothing. *)
Theorem C41_reachable : forall E m os g xs stk, history E m os g xs ->
  exists l l' n, Permutation (blocks g) (l ++ l') /\
    (forall b, In b l -> reach E (mem g) (blocks g) stk b) /\
    (forall b, In b l' -> ~ reach E (mem g) (blocks g) stk b) /\
    step E g (OReachable stk) = Some (g, n, []) /\ n = total l.
Proof.
  intros E m os g xs stk H. pose proof (history_wf _ _ _ _ _ H) as W.
  destruct (reachable_ok E g stk W) as (n & f & A & B & C).
  exists (kept f (blocks g)), (dropped f (blocks g)), n. cbn [step]. rewrite A. split; [|split; [|split]].
  - clear. unfold kept, dropped. induction (blocks g) as [|r l IH]; simpl; auto.
    destruct (f (rptr r)); simpl; [constructor; auto|]. rewrite <- Permutation_middle. constructor; auto.
  - intros b Hb. apply filter_In in Hb as [Hb1 Hb2]. apply B; auto.
  - intros b Hb R. apply filter_In in Hb as [Hb1 Hb2]. apply B in R; auto. rewrite R in Hb2. discriminate.
  - auto.
Qed.
(** GC_get_collectable subtracts from the number of buckets instead. *)
Theorem C41_collectable_partial : forall E m os g xs stk, history E m os g xs ->
  exists n, step E g (OReachable stk) = Some (g, n, []) /\
    step E g (OCollectable stk) = Some (g, (N.of_nat (length (buckets g)) + two64 - n mod two64) mod two64, []).
Proof.
  intros E m os g xs stk H. pose proof (history_wf _ _ _ _ _ H) as W.
  destruct (reachable_ok E g stk W) as (n & f & A & B & C). exists n. cbn [step]. rewrite A. auto.
Qed.

(** ** C42 *)

(** Once registered as a root, a block is a root after any further history that
    does not free or reallocate it. *)
Theorem C42_root_persists : forall E m os1 g1 xs1 p g2 x ev os2 g3 xs3,
  history E m os1 g1 xs1 -> (exists b, In b (blocks g1) /\ rptr b = p) ->
  step E g1 (ORegRoot p) = Some (g2, x, ev) ->
  Forall op_ok os2 -> (forall o, In o os2 -> ~ releases o p) -> run E g2 os2 = Some (g3, xs3) ->
  exists b, In b (blocks g3) /\ rptr b = p /\ rroot b = true.
Proof.
  intros E m os1 g1 xs1 p g2 x ev os2 g3 xs3 H (b & Hb & Hp) S F Hn R.
  pose proof (history_wf _ _ _ _ _ H) as W.
  assert (W2 : wf E g2) by (eapply (step_wf E g1 (ORegRoot p)); eauto; [apply H|exact I]).
  eapply run_root; eauto; [apply H|]. inversion S; subst.
  destruct (register_ok E g1 (rptr b) (with_root true) W) as (_ & B & _); auto.
  exists (with_root true b). rewrite B. split; [|auto]. apply in_map_iff. exists b. rewrite N.eqb_refl. auto.
Qed.
(** Reallocating a block gives a block of the requested size that is a root iff
    the old one was, with the old contents up to the smaller size. *)
Theorem C42_realloc : forall E m os g xs p size d k t1 t2 stk g' x ev b,
  history E m os g xs -> size + header < two64 -> size <> 0 ->
  In b (blocks g) -> rptr b = p -> step E g (ORealloc p size d k t1 t2 stk) = Some (g', x, ev) -> x <> 0 ->
  exists b', In b' (blocks g') /\ rptr b' = x /\ rsize b' = size /\ rdtor b' = d /\ rmrk b' = k /\
    rroot b' = rroot b /\
    (collects ev = false -> forall i, i < rsize b -> i < size -> mem g' (x + i) = mem g (p + i)).
Proof.
  intros E m os g xs p size d k t1 t2 stk g' x ev b H Hs Hz Hb Hp S Hx.
  pose proof (history_wf _ _ _ _ _ H) as W. cbn [step] in S.
  destruct (realloc_ok _ _ _ _ _ _ _ _ _ _ _ _ (proj1 H) W Hs Hz (ex_intro _ b (conj Hb Hp)) S)
    as (g1 & g2 & r & q & A1 & A2 & A3 & A4 & A5 & A6 & A7 & A8 & A9 & C & W' & K & Cases & _).
  destruct Cases as [[-> _]|(Hx' & P & _ & M)]; [congruence|].
  assert (r = b) as -> by (exact (in_uniq _ _ _ _ W A2 Hb (eq_trans A3 (eq_sym Hp)))).
  exists (mkrec x size d k false (rroot b)). split.
  { eapply Permutation_in; [symmetry; exact P|]. left; auto. }
  repeat (split; [reflexivity|]). intros HC i H1 H2.
  destruct (colls_ok _ _ _ _ _ C A4) as (_ & _ & _ & _ & [[_ ->]|(X & _)]).
  2:{ apply collects_in in X. congruence. }
  rewrite M, A9. unfold moved.
  replace ((x <=? x + i) && (x + i <? x + size)) with true.
  2:{ symmetry. apply andb_true_iff. split; [apply N.leb_le|apply N.ltb_lt]; lia. }
  replace (x + i - x) with i by lia. rewrite (proj2 (N.ltb_lt _ _) H1). reflexivity.
Qed.
(** Freeing or reallocating a block that is not a root does not change which other
    blocks are roots; and no operation makes a block stop being a root. *)
Theorem C42_others_partial : forall E m os g xs o g' x ev b',
  history E m os g xs -> op_ok o -> step E g o = Some (g', x, ev) ->
  In b' (blocks g') -> rptr b' <> x ->
  (forall r, In r (blocks g) -> releases o (rptr r) -> rroot r = false) -> o <> ORegRoot (rptr b') ->
  exists b, In b (blocks g) /\ rptr b = rptr b' /\ rroot b' = rroot b.
Proof.
  intros E m os g xs o g' x ev b' H OK S Hb Hx Hr Ho. pose proof (history_wf _ _ _ _ _ H) as W.
  destruct (step_origin _ _ _ _ _ _ _ (proj1 H) OK W S Hb) as [Hq|(b & B1 & B2 & B3 & B4 & B5)]; [congruence|].
  exists b. split; auto. split; [congruence|]. destruct B5 as [|[->|(r & R1 & R2 & R3)]]; auto.
  - congruence.
  - rewrite (Hr r) in R3 by auto. discriminate.
Qed.

(** ** C43 *)

(** With the first malloc succeeding, an allocation collects iff collection is
    not paused and the bytes handed out since the last collection (modulo 2^64)
    exceed the threshold.  [since] and [paused] look only at the history. *)
Theorem C43_alloc_collects_iff_partial : forall E m os g xs size d k t1 t2 stk g' x ev,
  history E m os g xs -> size + header < two64 -> (forall g1 n, malloc E t1 g1 n <> None) ->
  step E g (OAlloc size d k t1 t2 stk) = Some (g', x, ev) ->
  (In ECollect ev <-> paused os false = false /\ 8 * 1024 * 1024 < since os xs 0 mod 2 ^ 64).
Proof.
  intros E m os g xs size d k t1 t2 stk g' x ev H Hs M S. pose proof (history_wf _ _ _ _ _ H) as W.
  destruct H as (A & B & C).
  destruct (run_flag E A os (gc_create m) g xs 0 false B (create_wf E m) C eq_refl eq_refl) as [D K].
  cbn [step] in S. rewrite (alloc_collects _ _ _ _ _ _ _ _ _ _ _ _ W S M), D, K.
  rewrite negb_true_iff. unfold threshold, two64. tauto.
Qed.
Theorem C43_calloc_collects_iff_partial : forall E m os g xs nmem size d k t1 t2 stk g' x ev,
  history E m os g xs -> (forall g1 n, malloc E t1 g1 n <> None) ->
  step E g (OCalloc nmem size d k t1 t2 stk) = Some (g', x, ev) ->
  (In ECollect ev <-> paused os false = false /\ 8 * 1024 * 1024 < since os xs 0 mod 2 ^ 64).
Proof.
  intros E m os g xs nmem size d k t1 t2 stk g' x ev H M S. pose proof (history_wf _ _ _ _ _ H) as W.
  destruct H as (A & B & C).
  destruct (run_flag E A os (gc_create m) g xs 0 false B (create_wf E m) C eq_refl eq_refl) as [D K].
  cbn [step] in S. rewrite (alloc_collects _ _ _ _ _ _ _ _ _ _ _ _ W S M), D, K.
  rewrite negb_true_iff. unfold threshold, two64. tauto.
Qed.
(** Operations that do not allocate never collect, except GC_collect. *)
Theorem C43_others_never_collect : forall E m os g xs o g' x ev,
  history E m os g xs -> step E g o = Some (g', x, ev) -> In ECollect ev ->
  match o with OAlloc _ _ _ _ _ _ | OCalloc _ _ _ _ _ _ _ | OCollect _ => True
             | ORealloc _ size _ _ _ _ _ => size <> 0 | _ => False end.
Proof.
  intros E m os g xs o g' x ev H S HC. pose proof (history_wf _ _ _ _ _ H) as W.
  assert (Fr : forall p g1, GC_free E g p = (g1, ev) -> False).
  { intros p g1 F. unfold GC_free in F. destruct (gc_remove g p) as [[g2 r]|]; inversion F; subst.
    - destruct HC as [|[]]; discriminate.
    - destruct HC. }
  destruct o; cbn [step] in S; auto; try (inversion S; subst; destruct HC; fail).
  - intros ->. unfold GC_realloc in S. cbn [N.eqb] in S. destruct (GC_free E g p) as [g1 e1] eqn:F.
    inversion S; subst. eauto.
  - destruct (GC_free E g p) as [g1 e1] eqn:F. inversion S; subst. eauto.
  - destruct (reachable_ok E g stk W) as (n & f & A & _). rewrite A in S. inversion S; subst. destruct HC.
  - destruct (reachable_ok E g stk W) as (n & f & A & _). rewrite A in S. inversion S; subst. destruct HC.
Qed.

(** ** A concrete environment: a bump allocator that fails when told so. *)
Definition top (g : gc) : N := fold_left (fun a b => N.max a (rptr b + rsize b)) (blocks g) 4096.
Definition bump (t : nat) (g : gc) (n : N) : option N :=
  if Nat.eqb t 0 then None else if top g + n + header <=? 1099511627776 then Some (top g) else None.
Definition E0 : genv := mkgenv 4096 1099511627776 (fun _ => 255) (fun _ _ _ => []) bump (fun t g _ n => bump t g n).

Lemma top_ge l : forall a, a <= fold_left (fun a b => N.max a (rptr b + rsize b)) l a /\
  forall b, In b l -> rptr b + rsize b <= fold_left (fun a b => N.max a (rptr b + rsize b)) l a.
Proof.
  induction l as [|x l IH]; intros a; cbn [fold_left]; [split; [lia|intros b []]|].
  destruct (IH (N.max a (rptr x + rsize x))) as [A B]. split; [lia|]. intros b [<-|Hb]; [lia|auto].
Qed.
Lemma bump_room t g n r : bump t g n = Some r -> room E0 g n r.
Proof.
  unfold bump. destruct (Nat.eqb t 0); [discriminate|].
  destruct (N.leb_spec (top g + n + header) 1099511627776) as [L|]; [|discriminate]. intros [= <-].
  destruct (top_ge (blocks g) 4096) as [A B]. fold (top g) in A, B.
  unfold room. cbn [E0 lo hi]. unfold header in *. split; [unfold two64; lia|]. split; [lia|].
  intros b Hb. right. auto.
Qed.
Lemma E0_good : good_env E0.
Proof. split; [intros t g n r|intros t g p n r]; exact (bump_room t g n r). Qed.

Definition m0 : N -> N := fun _ => 0.
(** Two blocks at 4128 and 4168; the first refers to the second; a third at 4208
    with a finalizer is unreachable. *)
Definition write_word (a p : N) : list op :=
  map (fun k => OWrite (a + N.of_nat k) (N.shiftr p (8 * N.of_nat k) mod 256)) (seq 0 8).
Definition os0 : list op :=
  [OAlloc 8 None Conservative 1 1 []; OAlloc 8 None Conservative 1 1 []; OAlloc 8 (Some 7%nat) Atomic 1 1 []]
  ++ write_word 4128 4168.

Lemma op_ok_forall os : forallb (fun o => match o with
  | OAlloc size _ _ _ _ _ | ORealloc _ size _ _ _ _ _ => size + header <? two64
  | OCalloc nmem size _ _ _ _ _ => (nmem * size) mod two64 + header <? two64
  | _ => true end) os = true -> Forall op_ok os.
Proof.
  intros H. apply Forall_forall. intros o Ho. rewrite forallb_forall in H. specialize (H o Ho).
  destruct o; cbn [op_ok]; auto; apply N.ltb_lt; auto.
Qed.
Lemma history_run os g xs : run E0 (gc_create m0) os = Some (g, xs) ->
  forallb (fun o => match o with
  | OAlloc size _ _ _ _ _ | ORealloc _ size _ _ _ _ _ => size + header <? two64
  | OCalloc nmem size _ _ _ _ _ => (nmem * size) mod two64 + header <? two64
  | _ => true end) os = true -> history E0 m0 os g xs.
Proof. intros A B. split; [apply E0_good|]. split; auto. apply op_ok_forall; auto. Qed.

(** Runs compared through what can be observed. *)
Definition observe (r : option (gc * list (N * list event))) :=
  match r with Some (g, xs) => Some (map (fun b => (rptr b, rsize b, rroot b)) (blocks g), xs, allocs g) | None => None end.

Example C39_C40_example :
  observe (run E0 (gc_create m0) (os0 ++ [OCollect [12345; 4128]])) =
  Some ([(4128, 8, false); (4168, 8, false)],
        [(4128, []); (4168, []); (4208, [])] ++ repeat (0, []) 8 ++
        [(0, [ECollect; EFinal 7 4208; EFree 4208])], 16).
Proof. vm_compute. reflexivity. Qed.
Example C39_example_reachable : exists g xs b, history E0 m0 os0 g xs /\ In b (blocks g) /\ rptr b = 4168 /\
  reach E0 (mem g) (blocks g) [4128] b.
Proof.
  destruct (run E0 (gc_create m0) os0) as [[g xs]|] eqn:R; [|vm_compute in R; discriminate].
  assert (HB : option_map (fun r => blocks (fst r)) (run E0 (gc_create m0) os0) =
    Some [mkrec 4128 8 None Conservative false false; mkrec 4168 8 None Conservative false false;
          mkrec 4208 8 (Some 7%nat) Atomic false false]) by (vm_compute; reflexivity).
  assert (HM : option_map (fun r => word (mem (fst r)) 4128) (run E0 (gc_create m0) os0) = Some 4168)
    by (vm_compute; reflexivity).
  rewrite R in HB, HM. cbn [option_map fst] in HB, HM. injection HB as HB. injection HM as HM.
  exists g, xs, (mkrec 4168 8 None Conservative false false).
  split; [apply history_run; auto|]. rewrite HB. split; [right; left; auto|]. split; auto.
  eapply reach_via with (b := mkrec 4128 8 None Conservative false false).
  - apply reach_stack; left; auto.
  - right; left; auto.
  - cbn. exists 0. split; [lia|exact HM].
Qed.

(** When realloc first fails, the collection that follows does not look at the
    block being reallocated, and frees what only it refers to: the block at 4168,
    although the stack holds 4128 and the reallocated block still refers
    to it. *)
Theorem C39_realloc_refuted : exists E m os g xs o g' x ev b,
  history E m os g xs /\ op_ok o /\ step E g o = Some (g', x, ev) /\
  reach E (mem g) (blocks g) (scanned o) b /\ ~ releases o (rptr b) /\
  (forall b', In b' (blocks g') -> rptr b' <> rptr b) /\
  word (mem g') x = rptr b.
Proof.
  set (os := [OAlloc 8 None Conservative 1 1 []; OAlloc 8 None Conservative 1 1 []] ++ write_word 4128 4168).
  set (o := ORealloc 4128 16 None Conservative 0 1 [4128]).
  destruct (run E0 (gc_create m0) os) as [[g xs]|] eqn:R; [|vm_compute in R; discriminate].
  assert (HB : option_map (fun r => blocks (fst r)) (run E0 (gc_create m0) os) =
    Some [mkrec 4128 8 None Conservative false false; mkrec 4168 8 None Conservative false false])
    by (vm_compute; reflexivity).
  assert (HM : option_map (fun r => word (mem (fst r)) 4128) (run E0 (gc_create m0) os) = Some 4168)
    by (vm_compute; reflexivity).
  assert (HS : match run E0 (gc_create m0) os with
               | Some (g, _) => option_map (fun r => (blocks (fst (fst r)), snd (fst r), snd r,
                    word (mem (fst (fst r))) (snd (fst r)))) (step E0 g o)
               | None => None end =
    Some ([mkrec 4128 16 None Conservative false false], 4128, [ECollect; EFree 4168], 4168))
    by (vm_compute; reflexivity).
  rewrite R in HB, HM, HS. cbn [option_map fst] in HB, HM. injection HB as HB. injection HM as HM.
  destruct (step E0 g o) as [[[g' x] ev]|] eqn:S; [|discriminate]. cbn [option_map fst snd] in HS.
  injection HS as HS1 HS2 HS3 HS4.
  exists E0, m0, os, g, xs, o, g', x, ev, (mkrec 4168 8 None Conservative false false).
  split; [apply history_run; auto|]. split; [reflexivity|]. split; auto. rewrite HB. split; [|split; [|split]].
  - eapply reach_via with (b := mkrec 4128 8 None Conservative false false).
    + apply reach_stack; left; auto.
    + right; left; auto.
    + cbn. exists 0. split; [lia|exact HM].
  - cbn. discriminate.
  - rewrite HS1. intros b' [<-|[]]. discriminate.
  - exact HS4.
Qed.

(** README.md of the collector says that GC_free runs the finalizer; it does not. *)
Theorem C40_free_finalizer_refuted : exists E m os g xs g' x ev b,
  history E m os g xs /\ In b (blocks g) /\ rdtor b = Some 7%nat /\
  step E g (OFree (rptr b)) = Some (g', x, ev) /\ frees (rptr b) ev = 1%nat /\ finals (rptr b) ev = [].
Proof.
  destruct (run E0 (gc_create m0) os0) as [[g xs]|] eqn:R; [|vm_compute in R; discriminate].
  assert (HB : option_map (fun r => blocks (fst r)) (run E0 (gc_create m0) os0) =
    Some [mkrec 4128 8 None Conservative false false; mkrec 4168 8 None Conservative false false;
          mkrec 4208 8 (Some 7%nat) Atomic false false]) by (vm_compute; reflexivity).
  assert (HS : match run E0 (gc_create m0) os0 with
               | Some (g, _) => option_map snd (step E0 g (OFree 4208)) | None => None end = Some [EFree 4208])
    by (vm_compute; reflexivity).
  rewrite R in HB, HS. injection HB as HB.
  destruct (step E0 g (OFree 4208)) as [[[g' x] ev]|] eqn:S; [|discriminate]. injection HS as ->.
  exists E0, m0, os0, g, xs, g', x, [EFree 4208], (mkrec 4208 8 (Some 7%nat) Atomic false false).
  split; [apply history_run; auto|]. rewrite HB. split; [right; right; left; auto|]. auto.
Qed.

(** On a fresh collector nothing is allocated or reachable, but 8209 bytes are
    reported as collectable. *)
Theorem C41_collectable_refuted : exists E m os g xs g' n,
  history E m os g xs /\ step E g OAllocated = Some (g, 0, []) /\ step E g (OReachable []) = Some (g, 0, []) /\
  step E g (OCollectable []) = Some (g', n, []) /\ n = 8209.
Proof.
  exists E0, m0, [], (gc_create m0), [], (gc_create m0), 8209.
  split; [apply history_run; reflexivity|]. split; [reflexivity|]. split; [|split; [|reflexivity]]; vm_compute; reflexivity.
Qed.

(** Freeing a root makes the block before it in the same bucket a root: here the
    blocks are 8209 words apart, and the second one is never registered. *)
Definition os1 : list op :=
  [OAlloc 65640 None Conservative 1 1 []; OAlloc 8 None Conservative 1 1 []; ORegRoot 4128].
Theorem C42_free_root_refuted : exists E m os g xs g' x ev p q,
  history E m os g xs /\ p <> q /\ step E g (OFree p) = Some (g', x, ev) /\
  (exists b, In b (blocks g) /\ rptr b = q /\ rroot b = false) /\
  (exists b, In b (blocks g') /\ rptr b = q /\ rroot b = true).
Proof.
  destruct (run E0 (gc_create m0) os1) as [[g xs]|] eqn:R; [|vm_compute in R; discriminate].
  assert (HB : option_map (fun r => blocks (fst r)) (run E0 (gc_create m0) os1) =
    Some [mkrec 69800 8 None Conservative false false; mkrec 4128 65640 None Conservative false true])
    by (vm_compute; reflexivity).
  assert (HS : match run E0 (gc_create m0) os1 with
               | Some (g, _) => option_map (fun r => blocks (fst (fst r))) (step E0 g (OFree 4128))
               | None => None end = Some [mkrec 69800 8 None Conservative false true])
    by (vm_compute; reflexivity).
  rewrite R in HB, HS. injection HB as HB.
  destruct (step E0 g (OFree 4128)) as [[[g' x] ev]|] eqn:S; [|discriminate]. injection HS as HS.
  exists E0, m0, os1, g, xs, g', x, ev, 4128, 69800.
  split; [apply history_run; auto|]. split; [discriminate|]. split; auto. rewrite HB, HS. split.
  - eexists. split; [left; reflexivity|]. auto.
  - eexists. split; [left; reflexivity|]. auto.
Qed.
Example C42_example :
  observe (run E0 (gc_create m0) (os1 ++ [OCollect []; OAllocated])) =
  Some ([(4128, 65640, true)], [(4128, []); (69800, []); (0, []); (0, [ECollect; EFree 69800]); (65640, [])], 65640).
Proof. vm_compute. reflexivity. Qed.

(** Memory exhaustion collects even while collection is paused. *)
Theorem C43_paused_refuted : exists E m os g xs g' x ev,
  history E m os g xs /\ paused os false = true /\
  step E g (OAlloc 8 None Conservative 0 1 []) = Some (g', x, ev) /\ In ECollect ev.
Proof.
  destruct (run E0 (gc_create m0) [OPause]) as [[g xs]|] eqn:R; [|vm_compute in R; discriminate].
  assert (HS : match run E0 (gc_create m0) [OPause] with
               | Some (g, _) => option_map snd (step E0 g (OAlloc 8 None Conservative 0 1 []))
               | None => None end = Some [ECollect]) by (vm_compute; reflexivity).
  rewrite R in HS. destruct (step E0 g _) as [[[g' x] ev]|] eqn:S; [|discriminate]. injection HS as ->.
  exists E0, m0, [OPause], g, xs, g', x, [ECollect].
  split; [apply history_run; auto|]. split; auto. split; auto. left; auto.
Qed.
(** Above 8 MiB an allocation collects first; not at 8 MiB, and not when paused. *)
Example C43_example :
  option_map snd (run E0 (gc_create m0)
    [OAlloc 8388608 None Atomic 1 1 []; OAlloc 8 None Atomic 1 1 []; OAlloc 8 None Atomic 1 1 []]) =
  Some [(4128, []); (8392768, []); (4128, [ECollect; EFree 4128; EFree 8392768])] /\
  option_map snd (run E0 (gc_create m0)
    [OPause; OAlloc 8388609 None Atomic 1 1 []; OAlloc 8 None Atomic 1 1 []; OResume; OAlloc 8 None Atomic 1 1 [4128]]) =
  Some [(0, []); (4128, []); (8392769, []); (0, []); (8392769, [ECollect; EFree 8392769])].
Proof. split; vm_compute; reflexivity. Qed.
Print Assumptions C39_reachable_kept_partial.
Print Assumptions C39_collection_keeps_reachable.
Print Assumptions C39_total.
Print Assumptions C40_unreachable_freed_once.
Print Assumptions C40_reachable_not_freed.
Print Assumptions C40_final_before_free.
Print Assumptions C40_only_registered_freed.
Print Assumptions C40_no_second_free.
Print Assumptions C40_finalize_frees_all.
Print Assumptions C40_finalize_total.
Print Assumptions C41_registered_blocks.
Print Assumptions C41_allocated.
Print Assumptions C41_reachable.
Print Assumptions C41_collectable_partial.
Print Assumptions C42_root_persists.
Print Assumptions C42_realloc.
Print Assumptions C42_others_partial.
Print Assumptions C43_alloc_collects_iff_partial.
Print Assumptions C43_calloc_collects_iff_partial.
Print Assumptions C43_others_never_collect.
Print Assumptions C39_realloc_refuted.
Print Assumptions C40_free_finalizer_refuted.
Print Assumptions C41_collectable_refuted.
Print Assumptions C42_free_root_refuted.
Print Assumptions C43_paused_refuted.
