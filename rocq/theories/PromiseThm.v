(** C46: a promise's producer is not run again once it has returned. *)
From Coq Require Import ZArith Bool List Lia.
From Verif Require Import Hashtable HashtableProofs Promise.
Import ListNotations.

(** ** What a trace says (newest event first) *)

Definition starts (p : nat) (e : event) : bool := match e with EStart q => Nat.eqb q p | _ => false end.
Definition ends (p : nat) (e : event) : bool :=
  match e with EFinish q _ | EAbort q => Nat.eqb q p | _ => false end.
Definition count (f : event -> bool) (l : list event) : nat := length (filter f l).
(** No call of the producer of [p] is under way. *)
Definition idle (p : nat) (l : list event) : Prop := count (starts p) l = count (ends p) l.

Fixpoint last_result (p : nat) (l : list event) : option pval :=
  match l with
  | [] => None
  | EFinish q v :: r => if Nat.eqb q p then Some v else last_result p r
  | _ :: r => last_result p r
  end.

(** ** Proofs *)

(** Every event is justified by the ones before it. *)
Fixpoint legal (l : list event) : Prop :=
  match l with
  | [] => True
  | e :: r =>
      legal r /\
      match e with
      | EStart p => last_result p r = None
      | EFinish p _ | EAbort p => count (ends p) r < count (starts p) r
      | EForced p v => last_result p r = Some v
      end
  end.

Definition st_ok (s : pstate) : Prop :=
  legal (trace s) /\
  (forall p x, nth_error (proms s) p = Some x ->
     if forced x then last_result p (trace s) = Some (cache x) else last_result p (trace s) = None) /\
  (forall p, length (proms s) <= p -> last_result p (trace s) = None).

Definition depth_kept (s s' : pstate) : Prop :=
  forall p, count (starts p) (trace s') + count (ends p) (trace s) = count (ends p) (trace s') + count (starts p) (trace s).
Definition depth_grows (s s' : pstate) : Prop :=
  forall p, count (ends p) (trace s') + count (starts p) (trace s) <= count (starts p) (trace s') + count (ends p) (trace s).

(** What running anything guarantees. *)
Definition good_run (r : pout * pstate) (s : pstate) : Prop :=
  st_ok (snd r) /\ (exists new, trace (snd r) = new ++ trace s) /\ length (proms s) <= length (proms (snd r)) /\
  (forall p x, nth_error (proms s) p = Some x -> exists y, nth_error (proms (snd r)) p = Some y /\ producer y = producer x) /\
  depth_grows s (snd r) /\
  match fst r with Timeout => True | _ => depth_kept s (snd r) end.

Lemma good_refl o s : st_ok s -> good_run (o, s) s.
Proof.
  intros H. split; [exact H|]. split; [exists []; reflexivity|]. split; [simpl; lia|]. split; [simpl; eauto|].
  split; [intros p; simpl; lia|]. destruct o; simpl; auto; intros p; simpl; lia.
Qed.

Lemma good_trans o s1 r s : good_run (o, s1) s -> match o with Timeout => False | _ => True end ->
  good_run r s1 -> good_run r s.
Proof.
  intros (A1 & (n1 & A2) & A3 & A4 & A5 & A6) NT (B1 & (n2 & B2) & B3 & B4 & B5 & B6). simpl in *.
  split; auto. split. { exists (n2 ++ n1). now rewrite B2, A2, app_assoc. }
  split; [lia|]. split.
  { intros p x H. destruct (A4 _ _ H) as (y & Hy & Ey). destruct (B4 _ _ Hy) as (z & Hz & Ez). exists z. split; congruence. }
  assert (A6' : depth_kept s s1) by (destruct o; auto; contradiction).
  split. { intros p. specialize (B5 p). specialize (A6' p). lia. }
  destruct (fst r); auto; intros p; specialize (B6 p); specialize (A6' p); lia.
Qed.

Lemma count_cons f e l : count f (e :: l) = (if f e then 1 else 0) + count f l.
Proof. unfold count. simpl. destruct (f e); reflexivity. Qed.

Lemma legal_balance : forall l q, legal l -> count (ends q) l <= count (starts q) l.
Proof.
  induction l as [|e l IH]; intros q Lg; [auto|]. destruct Lg as [Lg J]. specialize (IH q Lg).
  rewrite !count_cons. destruct e as [a|a v|a|a v]; cbn [starts ends]; try lia; destruct (Nat.eqb_spec a q) as [->|]; lia.
Qed.

Lemma force_step_good call p s :
  (forall c s, st_ok s -> good_run (call c s) s) -> st_ok s -> good_run (force_step call p s) s.
Proof.
  intros HC H. unfold force_step. destruct (nth_error (proms s) p) as [x|] eqn:E; [|now apply good_refl].
  assert (H0 := H). destruct H as (L & P & Q). assert (Px := P _ _ E). destruct (forced x) eqn:F.
  - split. { split; [split; auto|]. split; auto. }
    split; [exists [EForced p (cache x)]; reflexivity|]. split; [simpl; lia|]. split; [simpl; eauto|].
    split; intros q; cbn [fst snd trace emit]; rewrite !count_cons; simpl; lia.
  - assert (OK1 : st_ok (emit (EStart p) s)). { split; [split; auto|]. split; auto. }
    assert (G := HC (producer x) _ OK1). destruct (call (producer x) (emit (EStart p) s)) as [o s1].
    destruct G as (A1 & (n1 & A2) & A3 & A4 & A5 & A6). cbn [fst snd trace emit proms] in *.
    assert (D : forall q, count (starts q) (EStart p :: trace s) = (if Nat.eqb p q then 1 else 0) + count (starts q) (trace s)).
    { intros q. now rewrite count_cons. }
    assert (D' : forall q, count (ends q) (EStart p :: trace s) = count (ends q) (trace s)).
    { intros q. now rewrite count_cons. }
    destruct (A4 _ _ E) as (y & Ey & Py).
    assert (LB : legal (trace s) -> forall q, count (ends q) (trace s) <= count (starts q) (trace s)).
    { intros Lg q. now apply legal_balance. }
    destruct o as [v|e|].
    + (* returns *)
      destruct A1 as (L1 & P1 & Q1).
      set (new := mkprom (producer x) v true).
      split.
      { split; [|split]; cbn [fst snd trace emit set_prom proms].
        - cbn [legal last_result]. rewrite Nat.eqb_refl. split; auto. split; auto.
          specialize (A6 p). rewrite D, D', Nat.eqb_refl in A6. specialize (LB L p). lia.
        - intros q z Hz. destruct (Nat.eq_dec p q) as [<-|NE].
          + rewrite nth_upd_eq in Hz by (eapply nth_lt; eauto). inversion Hz; subst z. simpl. now rewrite Nat.eqb_refl.
          + rewrite nth_upd_ne in Hz by auto. specialize (P1 _ _ Hz). simpl.
            destruct (Nat.eqb_spec p q); [congruence|]. exact P1.
        - intros q Hq. rewrite upd_length in Hq. simpl. destruct (Nat.eqb_spec p q) as [<-|NE]; auto.
          apply nth_lt in Ey. lia. }
      split. { exists (EForced p v :: EFinish p v :: n1 ++ [EStart p]). simpl. rewrite A2, <- app_assoc. reflexivity. }
      split. { simpl. rewrite upd_length. lia. }
      split.
      { intros q z Hz. destruct (A4 _ _ Hz) as (y' & Hy & Ey'). cbn [fst snd emit set_prom proms].
        destruct (Nat.eq_dec p q) as [<-|NE].
        - exists new. split; [apply nth_upd_eq; eapply nth_lt; eauto|]. simpl. congruence.
        - exists y'. split; auto. rewrite nth_upd_ne; auto. }
      assert (DK : depth_kept s (emit (EForced p v) (set_prom p new (emit (EFinish p v) s1)))).
      { intros q. specialize (A6 q). rewrite D, D' in A6. cbn [trace emit set_prom]. rewrite !count_cons. simpl.
        destruct (Nat.eqb p q); lia. }
      split; [|exact DK]. intros q. specialize (DK q). cbn [snd] in *. lia.
    + (* raises *)
      destruct A1 as (L1 & P1 & Q1).
      split.
      { split; [|split]; cbn [fst snd trace emit proms]; auto.
        cbn [legal]. split; auto. specialize (A6 p). rewrite D, D', Nat.eqb_refl in A6. specialize (LB L p). lia. }
      split. { exists (EAbort p :: n1 ++ [EStart p]). simpl. rewrite A2, <- app_assoc. reflexivity. }
      split; [simpl; lia|]. split; [simpl; eauto|].
      assert (DK : depth_kept s (emit (EAbort p) s1)).
      { intros q. specialize (A6 q). rewrite D, D' in A6. cbn [trace emit]. rewrite !count_cons. simpl.
        destruct (Nat.eqb p q); lia. }
      split; [|exact DK]. intros q. specialize (DK q). cbn [snd] in *. lia.
    + split; auto. split. { exists (n1 ++ [EStart p]). rewrite <- app_assoc. exact A2. }
      split; [simpl; lia|]. split; [simpl; eauto|]. split; [|exact I].
      intros q. specialize (A5 q). rewrite D, D' in A5. cbn [snd]. destruct (Nat.eqb p q); lia.
Qed.

Lemma lazy_loop_good call : (forall c s, st_ok s -> good_run (call c s) s) ->
  forall f p s, st_ok s -> good_run (lazy_loop call f p s) s.
Proof.
  intros HC. induction f as [|f IH]; intros p s H; simpl; [now apply good_refl|].
  assert (G := force_step_good call p s HC H). destruct (force_step call p s) as [[[z|q]|e|] s1]; auto.
  eapply good_trans; [exact G|exact I|]. apply IH. apply G.
Qed.

Lemma andthen_good r s f : good_run r s -> (forall v s1, st_ok s1 -> good_run (f v s1) s1) -> good_run (andthen r f) s.
Proof.
  intros G F. unfold andthen. destruct r as [[v|e|] s1]; auto. eapply good_trans; [exact G|exact I|]. apply F. apply G.
Qed.

Lemma prun_good : forall f c s, st_ok s -> good_run (prun f c s) s.
Proof.
  induction f as [|f IH]; intros c s H; simpl; [now apply good_refl|].
  destruct c as [v|v|body k|v k|v k|x k|x v k|body h k]; try (now apply good_refl).
  - (* delay *)
    set (s1 := mkpstate (proms s ++ [mkprom body (PInt 0) false]) (vars s) (trace s)).
    assert (G : good_run (Done (PInt 0), s1) s).
    { destruct H as (L & P & Q). split.
      { split; [exact L|]. split.
        - intros q z Hz. apply nth_snoc in Hz. destruct Hz as [Hz|[-> ->]]; [exact (P _ _ Hz)|]. simpl. apply Q. lia.
        - intros q Hq. apply Q. simpl in Hq. rewrite app_length in Hq. simpl in Hq. lia. }
      split; [exists []; reflexivity|]. split; [simpl; rewrite app_length; lia|].
      split. { intros q z Hz. exists z. split; auto. simpl. rewrite nth_error_app1; auto. eapply nth_lt; eauto. }
      split; intros q; simpl; lia. }
    eapply good_trans; [exact G|exact I|]. apply IH. apply G.
  - destruct v as [z|p]; [now apply good_refl|]. apply andthen_good; [|intros; now apply IH]. apply force_step_good; auto.
  - destruct v as [z|p]; [now apply good_refl|]. apply andthen_good; [|intros; now apply IH]. apply lazy_loop_good; auto.
  - apply IH. exact H.
  - match goal with |- good_run (prun f k ?x) s => set (s1 := x) end.
    eapply (good_trans (Done (PInt 0)) s1); [|exact I|apply IH; exact H].
    destruct (good_refl (Done (PInt 0)) s H) as (A1 & A2 & A3 & A4 & A5 & A6).
    split; [exact H|]. split; [exact A2|]. split; [exact A3|]. split; [exact A4|]. split; [exact A5|exact A6].
  - assert (G := IH body s H). destruct (prun f body s) as [[v|v|] s1]; auto.
    + eapply good_trans; [exact G|exact I|]. apply IH. apply G.
    + eapply good_trans; [exact G|exact I|]. apply andthen_good; [|intros; now apply IH]. apply IH. apply G.
Qed.

Lemma legal_app a b : legal (a ++ b) -> legal b.
Proof. induction a; simpl; tauto. Qed.

Lemma last_result_none p l : last_result p l = None <-> forall v, ~ In (EFinish p v) l.
Proof.
  induction l as [|e l IH]; simpl; [split; auto|]. destruct e as [a|a v|a|a v]; try (rewrite IH; split;
    [intros H w [E|A]; [discriminate|exact (H w A)]|intros H w A; exact (H w (or_intror A))]; fail).
  destruct (Nat.eqb_spec a p) as [->|N].
  - split; [discriminate|]. intros H. destruct (H v). auto.
  - rewrite IH. split; [intros H w [E|A]; [congruence|exact (H w A)]|intros H w A; exact (H w (or_intror A))].
Qed.

Lemma last_result_app_skip p a b : (forall v, ~ In (EFinish p v) a) -> last_result p (a ++ b) = last_result p b.
Proof.
  induction a as [|e a IH]; simpl; intros H; auto.
  assert (IH' : last_result p (a ++ b) = last_result p b) by (apply IH; intros v A; apply (H v); auto).
  destruct e as [c|c v|c|c v]; auto. destruct (Nat.eqb_spec c p) as [->|N]; auto. destruct (H v). auto.
Qed.

Lemma last_result_app_some p a b : last_result p b <> None -> last_result p (a ++ b) <> None.
Proof.
  intros H. induction a as [|e a IH]; simpl; auto. destruct e as [c|c v|c|c v]; auto. destruct (Nat.eqb c p); congruence.
Qed.

Lemma count_app f a b : count f (a ++ b) = count f a + count f b.
Proof. unfold count. now rewrite filter_app, app_length. Qed.

Lemma st0_ok : st_ok pstate0.
Proof. split; [exact I|]. split; [intros [|p] x H; discriminate|reflexivity]. Qed.

Lemma trace_legal fuel c : legal (trace (snd (prun fuel c pstate0))).
Proof. apply (prun_good fuel c pstate0 st0_ok). Qed.

Lemma no_start_after : forall new p old, legal (new ++ old) -> last_result p old <> None -> ~ In (EStart p) new.
Proof.
  induction new as [|e new IH]; intros p old L H; [intros []|]. intros [E|A].
  - subst e. destruct L as [_ L]. apply (last_result_app_some p new old H L).
  - destruct L as [L _]. exact (IH p old L H A).
Qed.

(** ** C46 *)

(** At every point of every execution: once the producer of a promise has
    returned, it is never called again. *)
Theorem C46_never_called_again : forall fuel c p v later earlier,
  trace (snd (prun fuel c pstate0)) = later ++ EFinish p v :: earlier ->
  ~ In (EStart p) later.
Proof.
  intros fuel c p v later earlier E. assert (L := trace_legal fuel c). rewrite E in L.
  eapply no_start_after; [exact L|]. simpl. rewrite Nat.eqb_refl. discriminate.
Qed.

(** What a force (or an iteration of lazy) returns is the result of the last call
    of the producer that returned. *)
Theorem C46_force_returns_last_result : forall fuel c p v later earlier,
  trace (snd (prun fuel c pstate0)) = later ++ EForced p v :: earlier ->
  exists l1 l2, earlier = l1 ++ EFinish p v :: l2 /\ forall w, ~ In (EFinish p w) l1.
Proof.
  intros fuel c p v later earlier E. assert (L := trace_legal fuel c). rewrite E in L.
  apply legal_app in L. destruct L as [_ L]. clear -L. induction earlier as [|e l IH]; [discriminate|].
  assert (R : last_result p l = Some v -> (forall w, e <> EFinish p w) ->
    exists l1 l2, e :: l = l1 ++ EFinish p v :: l2 /\ forall w, ~ In (EFinish p w) l1).
  { intros H N. destruct (IH H) as (l1 & l2 & -> & F). exists (e :: l1), l2. split; auto.
    intros w [A|A]; [exact (N w A)|exact (F w A)]. }
  simpl in L. destruct e as [a|a w|a|a w]; try (apply R; [exact L|congruence]).
  destruct (Nat.eqb_spec a p) as [->|N]; [|apply R; [exact L|congruence]].
  inversion L; subst. exists [], l. split; auto.
Qed.

(** Full claim: all forces of a promise return the same value.  Proved when the
    producer has returned and no call of it is under way, which is the case for
    every force made outside of the producer.  Missing: forces made while an
    outer call of the same producer is still running; see the refutation. *)
Theorem C46_cached_result_partial : forall fuel c p v later earlier,
  trace (snd (prun fuel c pstate0)) = later ++ EForced p v :: earlier ->
  idle p earlier ->
  forall w, In (EForced p w) later -> w = v.
Proof.
  intros fuel c p v later earlier E Idle w Hw. assert (L := trace_legal fuel c). rewrite E in L.
  assert (L0 := legal_app _ _ L). destruct L0 as [_ L0].
  assert (NS : ~ In (EStart p) later).
  { eapply no_start_after; [exact L|]. simpl. rewrite L0. discriminate. }
  assert (NF : forall u, ~ In (EFinish p u) later).
  { intros u Hu. assert (B := legal_balance _ p L). rewrite !count_app, !count_cons in B. simpl in B. unfold idle in Idle.
    assert (count (starts p) later = 0).
    { unfold count. clear -NS. induction later as [|e l IH]; auto. simpl. destruct (starts p e) eqn:S.
      - exfalso. apply NS. left. destruct e; try discriminate. simpl in S. apply Nat.eqb_eq in S. now subst.
      - apply IH. intros A. apply NS. now right. }
    assert (0 < count (ends p) later).
    { unfold count. clear -Hu. induction later as [|e l IH]; [destruct Hu|]. simpl. destruct Hu as [->|Hu].
      - simpl. rewrite Nat.eqb_refl. simpl. lia.
      - destruct (ends p e); simpl; [lia|auto]. }
    lia. }
  apply in_split in Hw. destruct Hw as (l1 & l2 & ->).
  rewrite <- app_assoc in L. apply legal_app in L. destruct L as [_ L].
  rewrite last_result_app_skip in L; [|intros u A; apply (NF u); apply in_or_app; right; now right].
  simpl in L. congruence.
Qed.

(** A promise whose producer forces the promise itself. *)
Definition reentrant : prog :=
  PDelay
    (PGet 0 (fun n => match n with
      | PInt 0 => PSet 0 (PInt 1) (PGet 1 (fun self => PForce self (fun _ => PRet (PInt 10))))
      | _ => PRet (PInt 20)
      end))
    (fun p => PSet 1 p (PForce p (fun v => PForce p (fun w => PRet v)))).

Theorem C46_reentrant_refuted : exists fuel c p v w,
  In (EForced p v) (trace (snd (prun fuel c pstate0))) /\ In (EForced p w) (trace (snd (prun fuel c pstate0))) /\ v <> w.
Proof.
  exists 20, reentrant, 0, (PInt 20), (PInt 10). split; [|split]; [| |discriminate]; vm_compute; tauto.
Qed.

(** [force] and [lazy] of something that is not a promise raise and run nothing. *)
Theorem C46_not_a_promise : forall fuel z k s,
  prun (S fuel) (PForce (PInt z) k) s = (Raised (PInt z), s) /\
  prun (S fuel) (PLazy (PInt z) k) s = (Raised (PInt z), s).
Proof. intros. split; reflexivity. Qed.

(** [lazy] never returns a promise. *)
Theorem C46_lazy_forces_completely : forall call fuel p s v s',
  lazy_loop call fuel p s = (Done v, s') -> exists z, v = PInt z.
Proof.
  intros call. induction fuel as [|f IH]; simpl; intros p s v s' H; [discriminate|].
  destruct (force_step call p s) as [[[z|q]|e|] s1] eqn:E; inversion H; subst; eauto.
Qed.

(** ** A case: a promise whose producer counts its runs, fails the first time,
    and a promise of a promise. *)
Definition demo : prog :=
  PDelay (PGet 0 (fun n => match n with
            | PInt 0 => PSet 0 (PInt 1) (PRaise (PInt 99))
            | PInt m => PSet 0 (PInt (m + 1)) (PRet (PInt (m * 100)))
            | PProm _ => PRet n
            end))
    (fun p => PDelay (PRet p) (fun q =>
      PTry (PForce p PRet) PRet (fun _ => PLazy q (fun v => PForce p (fun w => PForce q (fun _ => PGet 0 PRet)))))).

Example demo_run : prun 30 demo pstate0 = (Done (PInt 2), snd (prun 30 demo pstate0)) /\
  rev (trace (snd (prun 30 demo pstate0))) =
    [EStart 0; EAbort 0; EStart 1; EFinish 1 (PProm 0); EForced 1 (PProm 0); EStart 0; EFinish 0 (PInt 100);
     EForced 0 (PInt 100); EForced 0 (PInt 100); EForced 1 (PProm 0)].
Proof. split; vm_compute; reflexivity. Qed.

Print Assumptions C46_never_called_again.
Print Assumptions C46_force_returns_last_result.
Print Assumptions C46_cached_result_partial.
Print Assumptions C46_reentrant_refuted.
Print Assumptions C46_not_a_promise.
Print Assumptions C46_lazy_forces_completely.
