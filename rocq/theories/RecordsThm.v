(** C45: records. *)
From Coq Require Import ZArith NArith Bool Ascii String List Lia.
From Verif Require Import Base Heap HeapM Records.
Import ListNotations.

(** ** Specification: the hierarchy of record types in the heap *)

(** [descriptor h r p n]: [r] is a record type with parent [p] (#f: none) and [n]
    fields of its own. *)
Definition descriptor (h : heap) (r p : val) (n : nat) : Prop :=
  exists l name uid sealed opaque protocol fields,
    r = VPtr l /\ nth_error h l = Some (CRec VBaseRtd (name :: p :: uid :: sealed :: opaque :: protocol :: fields)) /\ length fields = n.
(** [r] is [s] or derived from it. *)
Inductive subtype (h : heap) : val -> val -> Prop :=
| SubSelf r p n : descriptor h r p n -> subtype h r r
| SubParent r p n s : descriptor h r p n -> p <> VFalse -> subtype h p s -> subtype h r s.
(** [inherited h r k]: the ancestors of [r] have [k] fields. *)
Inductive inherited (h : heap) : val -> nat -> Prop :=
| InhRoot r n : descriptor h r VFalse n -> inherited h r 0
| InhChild r p n m k : descriptor h r p n -> p <> VFalse -> descriptor h p m k -> forall j, inherited h p j -> inherited h r (j + k).
(** [v] is a record of type [r] with the given field values. *)
Definition record_of (h : heap) (v r : val) (fs : list val) : Prop :=
  exists l, v = VPtr l /\ nth_error h l = Some (CRec r fs) /\ r <> VBaseRtd.
Definition instance (h : heap) (v s : val) : Prop := exists r fs, record_of h v r fs /\ subtype h r s.
(** What programs can reach. *)
Definition reachable (procs : val -> bool) (w : rworld) : Prop := exists ops, w = snd (rrun procs rworld0 ops).

(** ** Invariant *)
Definition good (h : heap) : Prop :=
  (forall l fs, nth_error h l = Some (CRec VBaseRtd fs) -> exists p n, descriptor h (VPtr l) p n /\
     (p = VFalse \/ exists m p' n', p = VPtr m /\ m < l /\ descriptor h p p' n')) /\
  (forall l r fs, nth_error h l = Some (CRec r fs) -> r <> VBaseRtd -> exists p n k, descriptor h r p n /\ inherited h r k /\ length fs = k + n).

Lemma descriptor_fun h r p n p' n' : descriptor h r p n -> descriptor h r p' n' -> p = p' /\ n = n'.
Proof.
  intros [l [a [b [c [d [e [f [-> [N L]]]]]]]]] [l' [a' [b' [c' [d' [e' [f' [E [N' L']]]]]]]]]. injection E as <-. rewrite N in N'. injection N' as <- <- <- <- <- <- <-.
  split; auto. lia.
Qed.
Lemma inherited_fun h r j k : inherited h r j -> inherited h r k -> j = k.
Proof.
  intros H. revert k. induction H as [r n D|r p n m k0 D NP D2 j I IH]; intros k H2.
  - inversion H2 as [r' n' D'|r' p' n' m' k' D' NP' D2' j' I']; subst; auto. destruct (descriptor_fun _ _ _ _ _ _ D D') as [<- _]. contradiction.
  - inversion H2 as [r' n' D'|r' p' n' m' k' D' NP' D2' j' I']; subst.
    + destruct (descriptor_fun _ _ _ _ _ _ D D') as [-> _]. contradiction.
    + destruct (descriptor_fun _ _ _ _ _ _ D D') as [<- _]. destruct (descriptor_fun _ _ _ _ _ _ D2 D2') as [_ <-]. rewrite (IH _ I'). reflexivity.
Qed.
Definition rkept (h H : heap) : Prop := forall l r fs, nth_error h l = Some (CRec r fs) -> exists fs', nth_error H l = Some (CRec r fs') /\ length fs' = length fs /\ (r = VBaseRtd -> fs' = fs).
Lemma descriptor_kept h H r p n : rkept h H -> descriptor h r p n -> descriptor H r p n.
Proof.
  intros K [l [a [b [c [d [e [f [-> [N L]]]]]]]]]. destruct (K _ _ _ N) as [fs' [N' [_ E]]]. rewrite E in N' by auto. exists l, a, b, c, d, e, f. auto.
Qed.
Lemma subtype_kept h H r s : rkept h H -> subtype h r s -> subtype H r s.
Proof. intros K. induction 1; [eapply SubSelf|eapply SubParent]; eauto using descriptor_kept. Qed.
Lemma inherited_kept h H r k : rkept h H -> inherited h r k -> inherited H r k.
Proof. intros K. induction 1; [eapply InhRoot|eapply InhChild]; eauto using descriptor_kept. Qed.
Lemma rkept_snoc h c : rkept h (h ++ [c]).
Proof. intros l r fs N. exists fs. split; [|auto]. rewrite nth_error_app1; auto. apply nth_error_Some. congruence. Qed.
Lemma rkept_refl h : rkept h h. Proof. intros l r fs N. exists fs. auto. Qed.

Lemma good_inherited h : good h -> forall l p n, descriptor h (VPtr l) p n -> exists k, inherited h (VPtr l) k.
Proof.
  intros [G _]. intros l. induction l as [l IH] using lt_wf_ind. intros p n D.
  assert (X := D). destruct X as [l' [a [b [c [d [e [f [E [N L]]]]]]]]]. injection E as <-. destruct (G _ _ N) as [p1 [n1 [D1 P]]].
  destruct (descriptor_fun _ _ _ _ _ _ D D1) as [<- <-]. destruct P as [->|[m [p' [n' [-> [ML D2]]]]]].
  - exists 0. eapply InhRoot; eauto.
  - destruct (IH m ML _ _ D2) as [j J]. exists (j + n'). eapply InhChild; eauto. discriminate.
Qed.

Lemma rtdp_spec h v : rtdp h v = true <-> exists l fs, v = VPtr l /\ nth_error h l = Some (CRec VBaseRtd fs).
Proof.
  unfold rtdp, rec_at. split.
  - destruct v; try discriminate. destruct (nth_error h l) as [[]|] eqn:N; try discriminate. intros E. apply eqp_eq in E. subst. eauto.
  - intros [l [fs [-> N]]]. rewrite N. reflexivity.
Qed.
Lemma good_rtd h v : good h -> rtdp h v = true <-> exists p n, descriptor h v p n.
Proof.
  intros [G _]. rewrite rtdp_spec. split.
  - intros [l [fs [-> N]]]. destruct (G _ _ N) as [p [n [D _]]]. eauto.
  - intros [p [n [l [a [b [c [d [e [f [-> [N _]]]]]]]]]]]. eauto.
Qed.
Lemma descr_length h r p n : descriptor h r p n -> rtd_length h r = Some n /\ rtd_parent h r = Some p /\ rtdp h r = true.
Proof.
  intros [l [a [b [c [d [e [f [-> [N L]]]]]]]]]. unfold rtd_length, rtd_parent, rec_ref, rtdp, rec_at. rewrite N. simpl. repeat split. f_equal. lia.
Qed.
Lemma truthy_spec v : truthy v = true <-> v <> VFalse. Proof. destruct v; simpl; split; congruence. Qed.

Lemma record_size_ok h : good h -> forall l p n, descriptor h (VPtr l) p n -> forall k, inherited h (VPtr l) k ->
  forall f sz, l < f -> record_size f h (VPtr l) sz = ROk (sz + k + n).
Proof.
  intros [G _] l. induction l as [l IH] using lt_wf_ind. intros p n D k I f sz F. destruct f as [|f]; [lia|].
  destruct (descr_length _ _ _ _ D) as [L [P _]]. cbn [record_size]. rewrite L, P. cbn [need rbind].
  assert (X := D). destruct X as [l' [a [b [c [d [e [g [E [N _]]]]]]]]]. injection E as <-. destruct (G _ _ N) as [p1 [n1 [D1 PP]]].
  destruct (descriptor_fun _ _ _ _ _ _ D D1) as [<- <-]. destruct PP as [->|[m [p' [n' [-> [ML D2]]]]]].
  - assert (k = 0) by (eapply inherited_fun; eauto; eapply InhRoot; eauto). subst. cbn. f_equal. lia.
  - cbn [truthy]. inversion I as [r0 n0 D0|r0 p0 n0 m0 k0 D0 NP0 D20 j I2]; subst.
    + destruct (descriptor_fun _ _ _ _ _ _ D D0) as [X _]. discriminate.
    + destruct (descriptor_fun _ _ _ _ _ _ D D0) as [<- _]. destruct (descriptor_fun _ _ _ _ _ _ D2 D20) as [<- <-].
      rewrite (IH m ML _ _ D2 _ I2 f (sz + n)) by lia. f_equal. lia.
Qed.
Lemma subtype_inv h r s p n : descriptor h r p n -> subtype h r s -> r = s \/ (p <> VFalse /\ subtype h p s).
Proof.
  intros D S. inversion S as [r0 p0 n0 D0|r0 p0 n0 s0 D0 NP S0]; subst; auto. destruct (descriptor_fun _ _ _ _ _ _ D D0) as [<- _]. auto.
Qed.
Lemma instance_loop_ok h : good h -> forall l p n, descriptor h (VPtr l) p n -> forall s f, l < f ->
  exists b, instance_loop f h s (VPtr l) = ROk b /\ (b = true <-> subtype h (VPtr l) s).
Proof.
  intros [G _] l. induction l as [l IH] using lt_wf_ind. intros p n D s f F. destruct f as [|f]; [lia|].
  destruct (descr_length _ _ _ _ D) as [_ [P _]]. cbn [instance_loop]. destruct (eqp s (VPtr l)) eqn:E.
  - apply eqp_eq in E. subst. exists true. split; auto. split; auto. intros _. eapply SubSelf; eauto.
  - assert (NE : VPtr l <> s) by (intros <-; rewrite eqp_refl in E; discriminate). rewrite P. cbn [need rbind].
    assert (X := D). destruct X as [l' [a [b [c [d [e [g [E2 [N _]]]]]]]]]. injection E2 as <-. destruct (G _ _ N) as [p1 [n1 [D1 PP]]].
    destruct (descriptor_fun _ _ _ _ _ _ D D1) as [<- <-]. destruct PP as [->|[m [p' [n' [-> [ML D2]]]]]].
    + exists false. split; auto. split; [discriminate|]. intros S. destruct (subtype_inv _ _ _ _ _ D S) as [|[X _]]; [contradiction|congruence].
    + cbn [truthy]. destruct (IH m ML _ _ D2 s f ltac:(lia)) as [bb [R B]]. exists bb. split; auto. rewrite B. split.
      * intros S. eapply SubParent; eauto. discriminate.
      * intros S. destruct (subtype_inv _ _ _ _ _ D S) as [|[_ X]]; [contradiction|auto].
Qed.
Lemma predicate_ok h r v : good h -> rtdp h r = true ->
  exists b, record_predicate (fuel_of h) h r v = ROk b /\ (b = true <-> instance h v r).
Proof.
  intros G R. unfold record_predicate. rewrite R. destruct (record_valuep h v) eqn:V.
  - unfold record_valuep, rec_at, rec_rtd in *. destruct v; try discriminate. cbn [rec_at]. destruct (nth_error h l) as [[| | | |rt fs| | |]|] eqn:N; try discriminate.
    cbn [need rbind]. assert (NB : rt <> VBaseRtd) by (intros ->; discriminate). destruct (proj2 G _ _ _ N NB) as [p [n [k [D [I LF]]]]].
    assert (X := D). destruct X as [m [a [b [c [d [e [g [-> [N2 _]]]]]]]]].
    assert (m < fuel_of h) by (unfold fuel_of; assert (m < length h) by (apply nth_error_Some; congruence); lia).
    destruct (instance_loop_ok h G m p n D r (fuel_of h) H) as [bb [E B]]. exists bb. split; auto. rewrite B. split.
    + intros S. exists (VPtr m), fs. split; auto. exists l. auto.
    + intros [r' [fs' [[l' [E' [N' _]]] S]]]. injection E' as <-. rewrite N in N'. injection N' as <- <-. exact S.
  - exists false. split; auto. split; [discriminate|]. intros [r' [fs' [[l' [-> [N' NB]]] S]]]. exfalso. unfold record_valuep, rec_at in V. rewrite N' in V.
    destruct (eqp r' VBaseRtd) eqn:E; [apply eqp_eq in E; contradiction|discriminate].
Qed.
Lemma size_total h r p n k f : good h -> descriptor h r p n -> inherited h r k -> length h < f -> record_size f h r 0 = ROk (k + n).
Proof.
  intros G D I F. assert (X := D). destruct X as [m [a [b [c [d [e [g [-> [N2 _]]]]]]]]].
  rewrite (record_size_ok h G m p n D k I f 0); auto. assert (m < length h) by (apply nth_error_Some; congruence). lia.
Qed.
Lemma index_ok who h s p n k i : good h -> descriptor h s p n -> inherited h s k -> i < n ->
  field_index who (fuel_of h) h s (VFix (Z.of_nat i)) = ROk (k + i).
Proof.
  intros G D I LI. destruct (descr_length _ _ _ _ D) as [L [P R]]. unfold field_index. rewrite R, L, P. cbn [need rbind].
  replace (0 <=? Z.of_nat i)%Z with true by (symmetry; apply Z.leb_le; lia). replace (Z.of_nat i <? Z.of_nat n)%Z with true by (symmetry; apply Z.ltb_lt; lia).
  rewrite Nat2Z.id. inversion I as [r0 n0 D0|r0 p0 n0 m0 k0 D0 NP0 D20 j I2]; subst.
  - destruct (descriptor_fun _ _ _ _ _ _ D D0) as [-> _]. reflexivity.
  - destruct (descriptor_fun _ _ _ _ _ _ D D0) as [<- _]. rewrite (proj2 (truthy_spec p) NP0).
    rewrite (size_total h p m0 k0 j (fuel_of h) G D20 I2) by (unfold fuel_of; lia). cbn. f_equal. lia.
Qed.
(** The fields of a type lie within those of its subtypes. *)
Lemma field_bound h : good h -> forall r s, subtype h r s -> forall pr nr kr ps ns ks, descriptor h r pr nr -> inherited h r kr -> descriptor h s ps ns -> inherited h s ks ->
  ks + ns <= kr + nr /\ (r <> s -> ks + ns <= kr).
Proof.
  intros G r s S. induction S as [r p n D|r p n s D NP S IH]; intros pr nr kr ps ns ks Dr Ir Ds Is.
  - destruct (descriptor_fun _ _ _ _ _ _ Dr Ds) as [_ <-]. rewrite (inherited_fun _ _ _ _ Ir Is). split; [lia|]. intros X. contradiction.
  - destruct (descriptor_fun _ _ _ _ _ _ D Dr) as [<- <-]. inversion Ir as [r0 n0 D0|r0 p0 n0 m0 k0 D0 NP0 D20 j I2]; subst.
    + destruct (descriptor_fun _ _ _ _ _ _ D D0) as [-> _]. contradiction.
    + destruct (descriptor_fun _ _ _ _ _ _ D D0) as [<- _]. destruct (IH _ _ _ _ _ _ D20 I2 Ds Is) as [X _]. split; lia.
Qed.
Lemma subtype_descr h r s : subtype h r s -> (exists p n, descriptor h r p n) /\ exists p n, descriptor h s p n.
Proof. induction 1 as [r p n D|r p n s D NP S [_ IH]]; split; eauto. Qed.
Lemma subtype_linear h r s t : subtype h r s -> subtype h r t -> subtype h s t \/ subtype h t s.
Proof.
  induction 1 as [r p n D|r p n s D NP S IH]; intros T; auto. destruct (subtype_inv _ _ _ _ _ D T) as [<-|[_ T2]]; auto.
  right. eapply SubParent; eauto.
Qed.

(** ** The invariant holds of everything a program can reach *)
Lemma good_snoc_other h c : good h -> (forall r fs, c <> CRec r fs) -> good (h ++ [c]).
Proof.
  intros [G1 G2] NC. assert (K := rkept_snoc h c).
  assert (OLD : forall l r fs, nth_error (h ++ [c]) l = Some (CRec r fs) -> nth_error h l = Some (CRec r fs)).
  { intros l r fs N. destruct (Nat.lt_ge_cases l (length h)); [rewrite nth_error_app1 in N; auto|]. rewrite nth_error_app2 in N by auto.
    destruct (l - length h) as [|q]; [injection N as ->; edestruct NC; reflexivity|]. destruct q; discriminate. }
  split.
  - intros l fs N. apply OLD in N. destruct (G1 _ _ N) as [p [n [D P]]]. exists p, n. split; [eapply descriptor_kept; eauto|].
    destruct P as [|[m [p' [n' [E [ML D2]]]]]]; auto. right. exists m, p', n'. split; auto. split; auto. eapply descriptor_kept; eauto.
  - intros l r fs N NB. apply OLD in N. destruct (G2 _ _ _ N NB) as [p [n [k [D [I L]]]]]. exists p, n, k. split; [eapply descriptor_kept; eauto|].
    split; auto. eapply inherited_kept; eauto.
Qed.
Lemma good_snoc_record h r p n k fs : good h -> descriptor h r p n -> inherited h r k -> length fs = k + n -> good (h ++ [CRec r fs]).
Proof.
  intros [G1 G2] D I L. assert (K := rkept_snoc h (CRec r fs)).
  assert (NB : r <> VBaseRtd) by (destruct D as [l [a [b [c [d [e [g [-> _]]]]]]]]; discriminate).
  assert (OLD : forall l r' fs', nth_error (h ++ [CRec r fs]) l = Some (CRec r' fs') -> nth_error h l = Some (CRec r' fs') \/ (r' = r /\ fs' = fs)).
  { intros l r' fs' N. destruct (Nat.lt_ge_cases l (length h)); [rewrite nth_error_app1 in N; auto|]. rewrite nth_error_app2 in N by auto.
    destruct (l - length h) as [|q]; [injection N as <- <-; auto|]. destruct q; discriminate. }
  split.
  - intros l fs' N. destruct (OLD _ _ _ N) as [N'|[X _]]; [|congruence]. destruct (G1 _ _ N') as [p0 [n0 [D0 P]]]. exists p0, n0. split; [eapply descriptor_kept; eauto|].
    destruct P as [|[m [p' [n' [E [ML D2]]]]]]; auto. right. exists m, p', n'. split; auto. split; auto. eapply descriptor_kept; eauto.
  - intros l r' fs' N NB'. destruct (OLD _ _ _ N) as [N'|[-> ->]].
    + destruct (G2 _ _ _ N' NB') as [p0 [n0 [k0 [D0 [I0 L0]]]]]. exists p0, n0, k0. split; [eapply descriptor_kept; eauto|]. split; auto. eapply inherited_kept; eauto.
    + exists p, n, k. split; [eapply descriptor_kept; eauto|]. split; auto. eapply inherited_kept; eauto.
Qed.
Lemma good_snoc_rtd h name p uid sealed opaque prot fields : good h -> p = VFalse \/ rtdp h p = true ->
  good (h ++ [CRec VBaseRtd (name :: p :: uid :: sealed :: opaque :: prot :: fields)]).
Proof.
  intros G P. assert (G0 := G). destruct G as [G1 G2]. set (c := CRec VBaseRtd (name :: p :: uid :: sealed :: opaque :: prot :: fields)). assert (K := rkept_snoc h c).
  assert (OLD : forall l r' fs', nth_error (h ++ [c]) l = Some (CRec r' fs') -> nth_error h l = Some (CRec r' fs') \/ (l = length h /\ CRec r' fs' = c)).
  { intros l r' fs' N. destruct (Nat.lt_ge_cases l (length h)); [rewrite nth_error_app1 in N; auto|]. rewrite nth_error_app2 in N by auto.
    destruct (l - length h) as [|q] eqn:E; [right; split; [lia|]; cbn in N; unfold c in *; congruence|]. destruct q; discriminate. }
  split.
  - intros l fs' N. destruct (OLD _ _ _ N) as [N'|[-> _]].
    + destruct (G1 _ _ N') as [p0 [n0 [D0 P0]]]. exists p0, n0. split; [eapply descriptor_kept; eauto|].
      destruct P0 as [|[m [p' [n' [E [ML D2]]]]]]; auto. right. exists m, p', n'. split; auto. split; auto. eapply descriptor_kept; eauto.
    + exists p, (length fields). split.
      * exists (length h), name, uid, sealed, opaque, prot, fields. split; auto. split; auto. rewrite nth_error_app2, Nat.sub_diag by auto. reflexivity.
      * destruct P as [|P]; auto. right. assert (X := P). apply rtdp_spec in X. destruct X as [m [fs [-> N2]]].
        apply (good_rtd h _ G0) in P. destruct P as [p' [n' D2]]. exists m, p', n'. split; auto. split; [apply nth_error_Some; congruence|]. eapply descriptor_kept; eauto.
  - intros l r' fs' N NB'. destruct (OLD _ _ _ N) as [N'|[_ X]]; [|unfold c in X; injection X as X _; contradiction].
    destruct (G2 _ _ _ N' NB') as [p0 [n0 [k0 [D0 [I0 L0]]]]]. exists p0, n0, k0. split; [eapply descriptor_kept; eauto|]. split; auto. eapply inherited_kept; eauto.
Qed.
Lemma upd_at' l c h : l < length h -> nth_error (upd_cell l c h) l = Some c.
Proof. revert l; induction h; destruct l; simpl; intros; try lia; auto. apply IHh. lia. Qed.
Lemma repl_length {A} i (fs : list A) x : i < length fs -> length (firstn i fs ++ x :: skipn (S i) fs) = length fs.
Proof. intros L. rewrite app_length, firstn_length. cbn [length]. rewrite skipn_length. lia. Qed.
Lemma rkept_upd h l r fs fs' : nth_error h l = Some (CRec r fs) -> r <> VBaseRtd -> length fs' = length fs -> rkept h (upd_cell l (CRec r fs') h).
Proof.
  intros N NB L l0 r0 fs0 N0. destruct (Nat.eq_dec l l0) as [<-|NE].
  - rewrite N in N0. injection N0 as <- <-. exists fs'. split; [apply upd_at'; apply nth_error_Some; congruence|]. split; auto. intros X. contradiction.
  - exists fs0. rewrite upd_cell_ne by auto. auto.
Qed.
Lemma good_upd h l r fs fs' : good h -> nth_error h l = Some (CRec r fs) -> r <> VBaseRtd -> length fs' = length fs -> good (upd_cell l (CRec r fs') h).
Proof.
  intros [G1 G2] N NB L. assert (K := rkept_upd h l r fs fs' N NB L). assert (LL : l < length h) by (apply nth_error_Some; congruence).
  split.
  - intros l0 fs0 N0. destruct (Nat.eq_dec l l0) as [<-|NE]; [rewrite upd_at' in N0 by auto; injection N0 as X _; congruence|]. rewrite upd_cell_ne in N0 by auto.
    destruct (G1 _ _ N0) as [p0 [n0 [D0 P0]]]. exists p0, n0. split; [eapply descriptor_kept; eauto|].
    destruct P0 as [|[m [p' [n' [E [ML D2]]]]]]; auto. right. exists m, p', n'. split; auto. split; auto. eapply descriptor_kept; eauto.
  - intros l0 r0 fs0 N0 NB0.
    assert (X : exists fs1, nth_error h l0 = Some (CRec r0 fs1) /\ length fs0 = length fs1).
    { destruct (Nat.eq_dec l l0) as [<-|NE]; [rewrite upd_at' in N0 by auto; injection N0 as <- <-; eauto|]. rewrite upd_cell_ne in N0 by auto. eauto. }
    destruct X as [fs1 [N1 L1]]. destruct (G2 _ _ _ N1 NB0) as [p0 [n0 [k0 [D0 [I0 L0]]]]]. exists p0, n0, k0. split; [eapply descriptor_kept; eauto|].
    split; [eapply inherited_kept; eauto|lia].
Qed.

Definition step_world procs w o := snd (rstep procs w o).
Lemma put_spec f h r i v x h' : record_put f h r i v x = ROk h' ->
  exists j l rt fs, field_index "record-mutator" f h r i = ROk j /\ record_predicate f h r v = ROk true /\ v = VPtr l /\
    nth_error h l = Some (CRec rt fs) /\ j < length fs /\ h' = upd_cell l (CRec rt (firstn j fs ++ x :: skipn (S j) fs)) h.
Proof.
  unfold record_put. destruct (field_index _ f h r i) as [j| | |] eqn:J; try discriminate. cbn [rbind].
  destruct (record_predicate f h r v) as [[]| | |] eqn:P; try discriminate. cbn [rbind]. unfold rec_at.
  destruct v; try discriminate. destruct (nth_error h l) as [[| | | |rt fs| | |]|] eqn:N; try discriminate.
  destruct (Nat.ltb_spec j (length fs)) as [L|L]; try discriminate. intros E. injection E as <-. exists j, l, rt, fs. repeat split; auto.
Qed.
Lemma put_nonbase h f r v l rt fs : record_predicate f h r v = ROk true -> v = VPtr l -> nth_error h l = Some (CRec rt fs) -> rt <> VBaseRtd.
Proof.
  intros P -> N ->. unfold record_predicate in P. destruct (rtdp h r); [|discriminate]. unfold record_valuep, rec_at in P. rewrite N in P. discriminate.
Qed.
Lemma make_spec procs h t n p u s q fs v h' t' : make_rtd procs h t n p u s q fs = ROk (v, h', t') ->
  v = VPtr (length h) /\ h' = h ++ [CRec VBaseRtd (n :: p :: u :: s :: q :: VFalse :: fs)] /\ (p = VFalse \/ rtdp h p = true).
Proof.
  unfold make_rtd. destruct (truthy p) eqn:T.
  - unfold tab_ref at 1. destruct (rtdp h p) eqn:R; [|discriminate]. cbn [rbind].
    unfold tab_ref at 1 2. rewrite R. cbn [rbind].
    match goal with |- rbind ?a _ = _ -> _ => destruct a; try discriminate end. cbn [rbind].
    match goal with |- rbind ?a _ = _ -> _ => destruct a; try discriminate end. cbn [rbind].
    match goal with |- rbind ?a _ = _ -> _ => destruct a; try discriminate end. cbn [rbind].
    intros E. injection E as <- <- <-. auto.
  - intros E. injection E as <- <- <-. split; auto. split; auto. left. destruct p; auto; discriminate.
Qed.
Lemma step_kept procs w o : good (rw_heap w) -> good (rw_heap (snd (rstep procs w o))) /\ rkept (rw_heap w) (rw_heap (snd (rstep procs w o))).
Proof.
  intros G. destruct w as [h t]. cbn [rw_heap] in *. destruct o as [n p u s q fs|r args|r i v|r i v x|r v|k r p|c]; unfold rstep; cbn [rw_heap rw_tabs].
  - destruct (make_rtd procs h t n p u s q fs) as [[[v h'] t']| | |] eqn:M; cbn [snd rw_heap]; auto using rkept_refl.
    destruct (make_spec _ _ _ _ _ _ _ _ _ _ _ _ M) as [-> [-> P]]. split; [apply good_snoc_rtd; auto|apply rkept_snoc].
  - unfold record_construct. destruct (rtdp h r) eqn:R; cbn [snd rw_heap]; auto using rkept_refl.
    assert (X := R). apply good_rtd in X; auto. destruct X as [p [n D]]. assert (Y := D). destruct Y as [l [_ [_ [_ [_ [_ [_ [-> _]]]]]]]].
    destruct (good_inherited h G l p n D) as [k I]. rewrite (size_total h _ p n k (fuel_of h) G D I) by (unfold fuel_of; lia). cbn [rbind].
    destruct (Nat.eqb_spec (length args) (k + n)); cbn [snd rw_heap]; auto using rkept_refl. split; [eapply good_snoc_record; eauto|apply rkept_snoc].
  - cbn [snd rw_heap]. auto using rkept_refl.
  - destruct (record_put (fuel_of h) h r i v x) as [h'| | |] eqn:M; cbn [snd rw_heap]; auto using rkept_refl.
    destruct (put_spec _ _ _ _ _ _ _ M) as [j [l [rt [fs [J [P [E [N [L ->]]]]]]]]]. assert (NB := put_nonbase _ _ _ _ _ _ _ P E N).
    assert (Y : length (firstn j fs ++ x :: skipn (S j) fs) = length fs) by (apply repl_length; auto).
    split; [eapply good_upd; eauto|eapply rkept_upd; eauto].
  - cbn [snd rw_heap]. auto using rkept_refl.
  - destruct (tab_set procs _ h _ r p); cbn [snd rw_heap]; auto using rkept_refl.
  - destruct (is_record c) eqn:C; cbn [snd rw_heap]; auto using rkept_refl. split; [|apply rkept_snoc]. apply good_snoc_other; auto. intros r fs ->. discriminate.
Qed.
Lemma rkept_trans a b c : rkept a b -> rkept b c -> rkept a c.
Proof.
  intros A B l r fs N. destruct (A _ _ _ N) as [fs1 [N1 [L1 E1]]]. destruct (B _ _ _ N1) as [fs2 [N2 [L2 E2]]]. exists fs2. split; auto. split; [lia|]. intros X. rewrite E2, E1; auto.
Qed.
Lemma rrun_cons procs w o q : snd (rrun procs w (o :: q)) = snd (rrun procs (snd (rstep procs w o)) q).
Proof. cbn. destruct (rstep procs w o) as [r w1]. cbn. destruct (rrun procs w1 q). reflexivity. Qed.
Lemma run_kept procs ops : forall w, good (rw_heap w) -> good (rw_heap (snd (rrun procs w ops))) /\ rkept (rw_heap w) (rw_heap (snd (rrun procs w ops))).
Proof.
  induction ops as [|o q IH]; intros w G; [cbn; auto using rkept_refl|]. rewrite rrun_cons. destruct (step_kept procs w o G) as [G1 K1].
  destruct (IH _ G1) as [G2 K2]. split; auto. eapply rkept_trans; eauto.
Qed.
Lemma reachable_good procs w : reachable procs w -> good (rw_heap w).
Proof. intros [ops ->]. apply run_kept. split; cbn; intros [|]; discriminate. Qed.
Lemma good_types h v r fs : good h -> record_of h v r fs -> exists p n k, descriptor h r p n /\ inherited h r k /\ length fs = k + n.
Proof. intros [_ G] [l [-> [N NB]]]. eauto. Qed.
Lemma descr_inherited h s p n : good h -> descriptor h s p n -> exists k, inherited h s k.
Proof. intros G D. assert (Y := D). destruct Y as [l [_ [_ [_ [_ [_ [_ [-> _]]]]]]]]. eapply good_inherited; eauto. Qed.
Lemma get_ok h v r fs s p n k i : good h -> record_of h v r fs -> subtype h r s -> descriptor h s p n -> inherited h s k -> i < n ->
  record_get (fuel_of h) h s (VFix (Z.of_nat i)) v = need (nth_error fs (k + i)) /\ k + i < length fs.
Proof.
  intros G R S D I L. unfold record_get. rewrite (index_ok _ h s p n k i G D I L). cbn [rbind].
  destruct (predicate_ok h s v G (proj2 (proj2 (descr_length _ _ _ _ D)))) as [b [-> B]]. rewrite (proj2 B) by (exists r, fs; auto). cbn [rbind].
  destruct (good_types _ _ _ _ G R) as [p' [n' [k' [D' [I' LF]]]]]. destruct (field_bound h G r s S _ _ _ _ _ _ D' I' D I) as [FB _].
  destruct R as [l [-> [N _]]]. unfold rec_ref, rec_at. rewrite N. split; auto. lia.
Qed.
Lemma put_ok h v r fs s p n k i x : good h -> record_of h v r fs -> subtype h r s -> descriptor h s p n -> inherited h s k -> i < n ->
  exists l, v = VPtr l /\ record_put (fuel_of h) h s (VFix (Z.of_nat i)) v x = ROk (upd_cell l (CRec r (firstn (k + i) fs ++ x :: skipn (S (k + i)) fs)) h).
Proof.
  intros G R S D I L. destruct (get_ok h v r fs s p n k i G R S D I L) as [_ LT]. unfold record_put. rewrite (index_ok _ h s p n k i G D I L). cbn [rbind].
  destruct (predicate_ok h s v G (proj2 (proj2 (descr_length _ _ _ _ D)))) as [b [-> B]]. rewrite (proj2 B) by (exists r, fs; auto). cbn [rbind].
  destruct R as [l [-> [N _]]]. exists l. split; auto. unfold rec_at. rewrite N. destruct (Nat.ltb_spec (k + i) (length fs)); [reflexivity|lia].
Qed.
Lemma nth_repl {A} (fs : list A) x i j : i < length fs -> nth_error (firstn i fs ++ x :: skipn (S i) fs) j = if Nat.eqb i j then Some x else nth_error fs j.
Proof.
  revert i j. induction fs as [|y fs IH]; intros i j L; [cbn in L; lia|]. destruct i as [|i]; destruct j as [|j]; cbn; auto. apply IH. cbn in L. lia.
Qed.
Lemma disjoint h r s t ps ns ks pt nt kt i j : good h -> subtype h r s -> subtype h r t -> descriptor h s ps ns -> inherited h s ks -> descriptor h t pt nt -> inherited h t kt ->
  i < ns -> j < nt -> ks + i = kt + j -> s = t /\ i = j.
Proof.
  intros G S T Ds Is Dt It Li Lj E. destruct (eqp s t) eqn:Q.
  - apply eqp_eq in Q. subst t. rewrite (inherited_fun _ _ _ _ Is It) in E. split; auto. lia.
  - assert (NE : s <> t) by (intros ->; rewrite eqp_refl in Q; discriminate). exfalso. destruct (subtype_linear _ _ _ _ S T) as [X|X].
    + destruct (field_bound h G _ _ X _ _ _ _ _ _ Ds Is Dt It) as [_ Y]. specialize (Y NE). lia.
    + destruct (field_bound h G _ _ X _ _ _ _ _ _ Dt It Ds Is) as [_ Y]. specialize (Y (not_eq_sym NE)). lia.
Qed.
Lemma index_inv who h s idx j : good h -> field_index who (fuel_of h) h s idx = ROk j ->
  exists p n k i, descriptor h s p n /\ inherited h s k /\ idx = VFix (Z.of_nat i) /\ i < n /\ j = k + i.
Proof.
  intros G E. assert (R : rtdp h s = true) by (unfold field_index in E; destruct (rtdp h s); [reflexivity|discriminate]).
  apply good_rtd in R; auto. destruct R as [p [n D]]. destruct (descr_inherited h s p n G D) as [k I]. destruct (descr_length _ _ _ _ D) as [L [P R]].
  assert (X : exists i, idx = VFix (Z.of_nat i) /\ i < n).
  { unfold field_index in E. rewrite R, L in E. destruct idx; try discriminate. destruct (Z.leb_spec 0 z); [|discriminate]. cbn [need rbind] in E.
    destruct (Z.ltb_spec z (Z.of_nat n)); [|discriminate]. exists (Z.to_nat z). split; [f_equal|]; lia. }
  destruct X as [i [-> Li]]. rewrite (index_ok who h s p n k i G D I Li) in E. injection E as <-. exists p, n, k, i. auto.
Qed.

(** ** Theorems *)
Section Records.
Variable procs : val -> bool.

(** No operation on records has undefined behaviour or loops. *)
Theorem C45_never_undefined w o : reachable procs w -> (exists v, fst (rstep procs w o) = ROk v) \/ (exists e, fst (rstep procs w o) = RErr e).
Proof.
  intros R. apply reachable_good in R. destruct w as [h t]. cbn [rw_heap] in R. destruct o as [n p u s q fs|r args|r i v|r i v x|r v|k r p|c]; unfold rstep; cbn [rw_heap rw_tabs].
  - unfold make_rtd. destruct (truthy p); [|cbn; eauto]. unfold tab_ref, tab_set. destruct (rtdp h p); [|cbn; eauto]. cbn [rbind].
    repeat match goal with |- context[match rbind ?a _ with _ => _ end] => destruct a eqn:?; cbn [rbind fst]; eauto
      | H : match ?x with _ => _ end = _ |- _ => destruct x eqn:?; try discriminate
      | H : (if ?b then _ else _) = _ |- _ => destruct b eqn:?; try discriminate end.
  - unfold record_construct. destruct (rtdp h r) eqn:X; [|cbn; eauto]. apply good_rtd in X; auto. destruct X as [p [n D]]. destruct (descr_inherited h r p n R D) as [k I].
    rewrite (size_total h r p n k (fuel_of h) R D I) by (unfold fuel_of; lia). cbn [rbind]. destruct (Nat.eqb _ _); cbn; eauto.
  - unfold record_get. destruct (field_index "record-accessor" (fuel_of h) h r i) as [j|e| |] eqn:J; cbn [rbind fst]; eauto.
    + destruct (index_inv _ _ _ _ _ R J) as [p [n [k [i0 [D [I [-> [Li ->]]]]]]]].
      destruct (predicate_ok h r v R (proj2 (proj2 (descr_length _ _ _ _ D)))) as [b [P B]]. rewrite P. cbn [rbind]. destruct b; [|eauto].
      destruct (proj1 B eq_refl) as [rt [fs [RO S]]]. destruct (get_ok h v rt fs r p n k i0 R RO S D I Li) as [_ LT]. destruct RO as [l [-> [N _]]].
      unfold rec_ref, rec_at. rewrite N. destruct (nth_error fs (k + i0)) eqn:Q; [cbn; eauto|]. apply nth_error_None in Q. lia.
    + exfalso. unfold field_index in J. destruct (rtdp h r) eqn:X; [|discriminate]. apply good_rtd in X; auto. destruct X as [p [n D]]. destruct (descr_length _ _ _ _ D) as [L [P _]].
      destruct (descr_inherited h r p n R D) as [k I]. destruct i; try discriminate. destruct (0 <=? z)%Z eqn:Z1; [|discriminate]. rewrite L in J. cbn [need rbind] in J.
      destruct (z <? Z.of_nat n)%Z eqn:Z2; [|discriminate]. apply Z.leb_le in Z1. apply Z.ltb_lt in Z2.
      assert (Y := index_ok "record-accessor" h r p n k (Z.to_nat z) R D I ltac:(lia)). rewrite Z2Nat.id in Y by auto. unfold field_index in Y.
      rewrite (proj2 (proj2 (descr_length _ _ _ _ D))), L in Y. cbn [need rbind] in Y. rewrite (proj2 (Z.leb_le _ _) Z1), (proj2 (Z.ltb_lt _ _) Z2) in Y. congruence.
    + exfalso. unfold field_index in J. destruct (rtdp h r) eqn:X; [|discriminate]. apply good_rtd in X; auto. destruct X as [p [n D]]. destruct (descr_length _ _ _ _ D) as [L [P _]].
      destruct (descr_inherited h r p n R D) as [k I]. destruct i; try discriminate. destruct (0 <=? z)%Z eqn:Z1; [|discriminate]. rewrite L in J. cbn [need rbind] in J.
      destruct (z <? Z.of_nat n)%Z eqn:Z2; [|discriminate]. apply Z.leb_le in Z1. apply Z.ltb_lt in Z2.
      assert (Y := index_ok "record-accessor" h r p n k (Z.to_nat z) R D I ltac:(lia)). rewrite Z2Nat.id in Y by auto. unfold field_index in Y.
      rewrite (proj2 (proj2 (descr_length _ _ _ _ D))), L in Y. cbn [need rbind] in Y. rewrite (proj2 (Z.leb_le _ _) Z1), (proj2 (Z.ltb_lt _ _) Z2) in Y. congruence.
  - destruct (record_put (fuel_of h) h r i v x) as [h'|e| |] eqn:M; cbn [fst]; eauto; exfalso.
    all: unfold record_put in M; destruct (field_index "record-mutator" (fuel_of h) h r i) as [j|e| |] eqn:J; try discriminate; cbn [rbind] in M.
    all: try (destruct (index_inv _ _ _ _ _ R J) as [p [n [k [i0 [D [I [-> [Li ->]]]]]]]];
      destruct (predicate_ok h r v R (proj2 (proj2 (descr_length _ _ _ _ D)))) as [b [P B]]; rewrite P in M; cbn [rbind] in M; destruct b; [|discriminate];
      destruct (proj1 B eq_refl) as [rt [fs [RO S]]]; destruct (get_ok h v rt fs r p n k i0 R RO S D I Li) as [_ LT]; destruct RO as [l [-> [N _]]];
      unfold rec_at in M; rewrite N in M; destruct (Nat.ltb_spec (k + i0) (length fs)); [discriminate|lia]).
    all: unfold field_index in J; destruct (rtdp h r) eqn:X; [|discriminate]; apply good_rtd in X; auto; destruct X as [p [n D]]; destruct (descr_length _ _ _ _ D) as [L [P _]];
      destruct (descr_inherited h r p n R D) as [k I]; destruct i; try discriminate; destruct (0 <=? z)%Z eqn:Z1; [|discriminate]; rewrite L in J; cbn [need rbind] in J;
      destruct (z <? Z.of_nat n)%Z eqn:Z2; [|discriminate]; apply Z.leb_le in Z1; apply Z.ltb_lt in Z2;
      assert (Y := index_ok "record-mutator" h r p n k (Z.to_nat z) R D I ltac:(lia)); rewrite Z2Nat.id in Y by auto; unfold field_index in Y;
      rewrite (proj2 (proj2 (descr_length _ _ _ _ D))), L in Y; cbn [need rbind] in Y; rewrite (proj2 (Z.leb_le _ _) Z1), (proj2 (Z.ltb_lt _ _) Z2) in Y; congruence.
  - cbn [fst]. destruct (rtdp h r) eqn:X.
    + destruct (predicate_ok h r v R X) as [b [-> _]]. cbn. eauto.
    + unfold record_predicate. rewrite X. cbn. eauto.
  - unfold tab_set. destruct (rtdp h r); [destruct (procs p)|]; cbn; eauto.
  - destruct (is_record c); cbn; eauto.
Qed.

(** The predicate holds exactly of the instances of the type and its subtypes. *)
Theorem C45_predicate w r v p n : reachable procs w -> descriptor (rw_heap w) r p n ->
  (instance (rw_heap w) v r -> fst (rstep procs w (RIs r v)) = ROk VTrue) /\ (~ instance (rw_heap w) v r -> fst (rstep procs w (RIs r v)) = ROk VFalse).
Proof.
  intros R D. apply reachable_good in R. destruct (predicate_ok _ r v R (proj2 (proj2 (descr_length _ _ _ _ D)))) as [b [P B]]. cbn [rstep fst]. rewrite P. cbn [rbind].
  destruct b; split; intros X; auto; exfalso; [apply X, B; auto|apply B in X; discriminate].
Qed.

(** A constructor takes one argument for each field, inherited fields first, and
    makes a new record; with any other number of arguments it is an error. *)
Theorem C45_constructor w r p n k args : reachable procs w -> descriptor (rw_heap w) r p n -> inherited (rw_heap w) r k ->
  (length args = k + n -> exists v, fst (rstep procs w (RMake r args)) = ROk v /\ record_of (rw_heap (snd (rstep procs w (RMake r args)))) v r args /\
     (forall r' fs, ~ record_of (rw_heap w) v r' fs)) /\
  (length args <> k + n -> (exists e, fst (rstep procs w (RMake r args)) = RErr e) /\ snd (rstep procs w (RMake r args)) = w).
Proof.
  intros R D I. apply reachable_good in R. unfold rstep, record_construct. rewrite (proj2 (proj2 (descr_length _ _ _ _ D))).
  rewrite (size_total _ r p n k (fuel_of (rw_heap w)) R D I) by (unfold fuel_of; lia). cbn [rbind].
  destruct (Nat.eqb_spec (length args) (k + n)) as [E|E]; split; intros X; try contradiction; cbn [fst snd rw_heap].
  - exists (VPtr (length (rw_heap w))). split; auto. split.
    + exists (length (rw_heap w)). split; auto. split; [rewrite nth_error_app2, Nat.sub_diag by auto; reflexivity|]. destruct D as [l [_ [_ [_ [_ [_ [_ [-> _]]]]]]]]. discriminate.
    + intros r' fs [l [Y [N _]]]. injection Y as <-. assert (length (rw_heap w) < length (rw_heap w)) by (apply nth_error_Some; congruence). lia.
  - eauto.
Qed.

(** An accessor applied to a new record returns the constructor's argument. *)
Theorem C45_initial_value w r args v s p n k i : reachable procs w -> record_of (rw_heap w) v r args -> subtype (rw_heap w) r s ->
  descriptor (rw_heap w) s p n -> inherited (rw_heap w) s k -> i < n ->
  exists x, nth_error args (k + i) = Some x /\ fst (rstep procs w (RGet s (VFix (Z.of_nat i)) v)) = ROk x.
Proof.
  intros R RO S D I L. apply reachable_good in R. destruct (get_ok _ _ _ _ _ _ _ _ _ R RO S D I L) as [E LT]. cbn [rstep fst]. rewrite E.
  destruct (nth_error args (k + i)) eqn:Q; [cbn; eauto|]. apply nth_error_None in Q. lia.
Qed.

(** Fields of a type and of its ancestors never overlap. *)
Theorem C45_no_overlap w r s t ps ns ks pt nt kt i j : reachable procs w -> subtype (rw_heap w) r s -> subtype (rw_heap w) r t ->
  descriptor (rw_heap w) s ps ns -> inherited (rw_heap w) s ks -> descriptor (rw_heap w) t pt nt -> inherited (rw_heap w) t kt ->
  i < ns -> j < nt -> ks + i = kt + j -> s = t /\ i = j.
Proof. intros R. apply reachable_good in R. apply disjoint; auto. Qed.

(** Accessors, mutators reject everything else, and change nothing. *)
Theorem C45_rejects w s v i x : reachable procs w -> ~ instance (rw_heap w) v s ->
  (exists e, fst (rstep procs w (RGet s i v)) = RErr e) /\ (exists e, fst (rstep procs w (RPut s i v x)) = RErr e) /\ snd (rstep procs w (RPut s i v x)) = w.
Proof.
  intros R NI. assert (G := reachable_good _ _ R).
  assert (NG : forall y, fst (rstep procs w (RGet s i v)) <> ROk y).
  { intros y. cbn [rstep fst]. unfold record_get. destruct (field_index _ _ _ s i) eqn:J; try discriminate. cbn [rbind].
    destruct (index_inv _ _ _ _ _ G J) as [p [n [k [i0 [D _]]]]]. destruct (predicate_ok _ s v G (proj2 (proj2 (descr_length _ _ _ _ D)))) as [b [-> B]]. cbn [rbind].
    destruct b; [|discriminate]. exfalso. apply NI, B. reflexivity. }
  assert (NP : forall y, fst (rstep procs w (RPut s i v x)) <> ROk y /\ snd (rstep procs w (RPut s i v x)) = w).
  { intros y. cbn [rstep]. destruct (record_put _ _ s i v x) as [h'| | |] eqn:M; cbn [fst snd]; try (split; [discriminate|reflexivity]).
    exfalso. destruct (put_spec _ _ _ _ _ _ _ M) as [j [l [rt [fs [J [P _]]]]]]. destruct (index_inv _ _ _ _ _ G J) as [p [n [k [i0 [D _]]]]].
    destruct (predicate_ok _ s v G (proj2 (proj2 (descr_length _ _ _ _ D)))) as [b [P' B]]. rewrite P in P'. injection P' as <-. apply NI, B. reflexivity. }
  split; [|split; [|apply (NP VFalse)]].
  - destruct (C45_never_undefined w (RGet s i v) R) as [[y Y]|]; auto. edestruct NG; eauto.
  - destruct (C45_never_undefined w (RPut s i v x) R) as [[y Y]|]; auto. destruct (NP y). contradiction.
Qed.

(** [last_store s i v ops x]: the last value that [ops] store in field [i] of type [s] of
    the record [v], [x] if they store none. *)
Fixpoint last_store (s i v : val) (ops : list rop) (x : val) : val :=
  match ops with
  | [] => x
  | RPut s' i' v' y :: q => last_store s i v q (if eqp s s' && eqp i i' && eqp v v' then y else x)
  | _ :: q => last_store s i v q x
  end.
Definition stored (h : heap) (s v : val) (i : nat) (x : val) : Prop := record_get (fuel_of h) h s (VFix (Z.of_nat i)) v = ROk x.
Lemma stored_kept h H s v i x : good h -> good H -> (forall l r fs, nth_error h l = Some (CRec r fs) -> nth_error H l = Some (CRec r fs)) ->
  forall r fs p n, record_of h v r fs -> subtype h r s -> descriptor h s p n -> i < n -> stored h s v i x -> stored H s v i x.
Proof.
  intros G GH K r fs p n RO S D L. assert (RK : rkept h H) by (intros l0 r0 fs0 N0; exists fs0; auto). destruct (descr_inherited h s p n G D) as [k I]. unfold stored.
  rewrite (proj1 (get_ok h v r fs s p n k i G RO S D I L)).
  assert (RO' : record_of H v r fs) by (destruct RO as [l [-> [N NB]]]; exists l; auto).
  rewrite (proj1 (get_ok H v r fs s p n k i GH RO' (subtype_kept _ _ _ _ RK S) (descriptor_kept _ _ _ _ _ RK D) (inherited_kept _ _ _ _ RK I) L)). auto.
Qed.
Lemma step_stored w o s v i x r fs p n : good (rw_heap w) -> record_of (rw_heap w) v r fs -> subtype (rw_heap w) r s -> descriptor (rw_heap w) s p n -> i < n ->
  stored (rw_heap w) s v i x -> stored (rw_heap (snd (rstep procs w o))) s v i (last_store s (VFix (Z.of_nat i)) v [o] x).
Proof.
  intros G RO S D L ST. assert (G2 := proj1 (step_kept procs w o G)).
  assert (APP : forall c, good (rw_heap w ++ [c]) -> stored (rw_heap w ++ [c]) s v i x).
  { intros c GC. eapply stored_kept with (h := rw_heap w); eauto. intros l r0 fs0 N. rewrite nth_error_app1; auto. apply nth_error_Some. congruence. }
  destruct w as [h t]. cbn [rw_heap] in *. destruct o as [nm pa u se q ff|r0 args|r0 i0 v0|r0 i0 v0 y|r0 v0|k r0 pr|c]; cbn [last_store]; unfold rstep in *; cbn [rw_heap rw_tabs] in *.
  - destruct (make_rtd procs h t nm pa u se q ff) as [[[v1 h'] t']| | |] eqn:M; cbn [snd rw_heap] in *; auto.
    destruct (make_spec _ _ _ _ _ _ _ _ _ _ _ _ M) as [_ [-> _]]. auto.
  - unfold record_construct in *. destruct (rtdp h r0); cbn [snd rw_heap] in *; auto. destruct (record_size (fuel_of h) h r0 0) as [m| | |]; cbn [rbind snd rw_heap] in *; auto.
    destruct (Nat.eqb _ _); cbn [snd rw_heap] in *; auto.
  - auto.
  - destruct (descr_inherited h s p n G D) as [k I]. destruct (record_put (fuel_of h) h r0 i0 v0 y) as [h'| | |] eqn:M.
    + cbn [snd rw_heap] in *. destruct (put_spec _ _ _ _ _ _ _ M) as [j [l [rt [f0 [J [P [-> [N [LJ ->]]]]]]]]].
      destruct (index_inv _ _ _ _ _ G J) as [p0 [n0 [k0 [i1 [D0 [I0 [-> [L0 ->]]]]]]]].
      assert (NB := put_nonbase _ _ _ _ _ _ _ P eq_refl N). destruct (predicate_ok h r0 (VPtr l) G (proj2 (proj2 (descr_length _ _ _ _ D0)))) as [b [P' B]].
      rewrite P in P'. injection P' as <-. destruct (proj1 B eq_refl) as [rt' [f0' [[l' [E' [N' _]]] S0]]]. injection E' as <-. rewrite N in N'. injection N' as <- <-.
      set (f1 := firstn (k0 + i1) f0 ++ y :: skipn (Datatypes.S (k0 + i1)) f0) in *. assert (LF : length f1 = length f0) by (apply repl_length; auto).
      assert (RK := rkept_upd h l rt f0 f1 N NB LF). destruct RO as [lv [-> [Nv NBv]]]. unfold stored in *.
      rewrite (proj1 (get_ok h (VPtr lv) r fs s p n k i G (ex_intro _ lv (conj eq_refl (conj Nv NBv))) S D I L)) in ST.
      destruct (Nat.eq_dec l lv) as [<-|NE].
      * rewrite N in Nv. injection Nv as -> ->. assert (RO' : record_of (upd_cell l (CRec r f1) h) (VPtr l) r f1).
        { exists l. split; auto. split; auto. apply upd_at'. apply nth_error_Some. congruence. }
        rewrite (proj1 (get_ok _ _ r f1 s p n k i G2 RO' (subtype_kept _ _ _ _ RK S) (descriptor_kept _ _ _ _ _ RK D) (inherited_kept _ _ _ _ RK I) L)).
        unfold f1. rewrite nth_repl by auto. destruct (Nat.eqb_spec (k0 + i1) (k + i)) as [E|E].
        -- destruct (disjoint h r r0 s _ _ _ _ _ _ _ _ G S0 S D0 I0 D I L0 L E) as [-> ->]. rewrite !eqp_refl. reflexivity.
        -- destruct (eqp s r0) eqn:Q1; cbn [andb]; auto. apply eqp_eq in Q1. subst r0. destruct (eqp (VFix (Z.of_nat i)) (VFix (Z.of_nat i1))) eqn:Q2; cbn [andb]; auto.
           apply eqp_eq in Q2. injection Q2 as Q2. rewrite (inherited_fun _ _ _ _ I0 I) in E. lia.
      * assert (RO' : record_of (upd_cell l (CRec rt f1) h) (VPtr lv) r fs). { exists lv. rewrite upd_cell_ne by auto. auto. }
        rewrite (proj1 (get_ok _ _ r fs s p n k i G2 RO' (subtype_kept _ _ _ _ RK S) (descriptor_kept _ _ _ _ _ RK D) (inherited_kept _ _ _ _ RK I) L)).
        destruct (eqp (VPtr lv) (VPtr l)) eqn:Q; [apply eqp_eq in Q; injection Q as Q; congruence|]. rewrite andb_false_r. auto.
    + cbn [snd rw_heap]. destruct (eqp s r0 && eqp (VFix (Z.of_nat i)) i0 && eqp v v0) eqn:Q; auto. apply andb_prop in Q. destruct Q as [Q Q3]. apply andb_prop in Q. destruct Q as [Q1 Q2].
      apply eqp_eq in Q1, Q2, Q3. subst. destruct (put_ok h v0 r fs r0 p n k i y G RO S D I L) as [l [_ X]]. congruence.
    + cbn [snd rw_heap]. destruct (eqp s r0 && eqp (VFix (Z.of_nat i)) i0 && eqp v v0) eqn:Q; auto. apply andb_prop in Q. destruct Q as [Q Q3]. apply andb_prop in Q. destruct Q as [Q1 Q2].
      apply eqp_eq in Q1, Q2, Q3. subst. destruct (put_ok h v0 r fs r0 p n k i y G RO S D I L) as [l [_ X]]. congruence.
    + cbn [snd rw_heap]. destruct (eqp s r0 && eqp (VFix (Z.of_nat i)) i0 && eqp v v0) eqn:Q; auto. apply andb_prop in Q. destruct Q as [Q Q3]. apply andb_prop in Q. destruct Q as [Q1 Q2].
      apply eqp_eq in Q1, Q2, Q3. subst. destruct (put_ok h v0 r fs r0 p n k i y G RO S D I L) as [l [_ X]]. congruence.
  - auto.
  - destruct (tab_set procs _ h _ r0 pr); cbn [snd rw_heap]; auto.
  - destruct (is_record c); cbn [snd rw_heap] in *; auto.
Qed.
Lemma last_store_cons s i v o q x : last_store s i v (o :: q) x = last_store s i v q (last_store s i v [o] x).
Proof. destruct o; reflexivity. Qed.

(** Accessor [i] of [s] returns, after any history, the value last stored in that
    field of that record. *)
Theorem C45_last_store w s v i p n : reachable procs w -> instance (rw_heap w) v s -> descriptor (rw_heap w) s p n -> i < n ->
  exists x, forall ops, fst (rstep procs (snd (rrun procs w ops)) (RGet s (VFix (Z.of_nat i)) v)) = ROk (last_store s (VFix (Z.of_nat i)) v ops x).
Proof.
  intros R [r [fs [RO S]]] D L. apply reachable_good in R. destruct (descr_inherited _ s p n R D) as [k I].
  destruct (get_ok _ _ _ _ _ _ _ _ _ R RO S D I L) as [E LT]. destruct (nth_error fs (k + i)) as [x|] eqn:Q; [|apply nth_error_None in Q; lia]. exists x.
  assert (ST : stored (rw_heap w) s v i x) by exact E. clear E LT Q I k. intros ops. cbn [rstep fst]. change (stored (rw_heap (snd (rrun procs w ops))) s v i (last_store s (VFix (Z.of_nat i)) v ops x)).
  revert w x fs R RO S D ST. induction ops as [|o q IH]; intros w x fs R RO S D ST; [exact ST|]. rewrite rrun_cons, last_store_cons.
  destruct (step_kept procs w o R) as [G1 K1]. assert (RO1 : exists fs1, record_of (rw_heap (snd (rstep procs w o))) v r fs1).
  { destruct RO as [l [-> [N NB]]]. destruct (K1 _ _ _ N) as [fs1 [N1 _]]. exists fs1, l. auto. }
  destruct RO1 as [fs1 RO1]. apply (IH _ _ fs1); auto; [eapply subtype_kept; eauto|eapply descriptor_kept; eauto|]. eapply step_stored; eauto.
Qed.
End Records.

(** ** What the implementation does not enforce *)

(** A sealed type can be extended: the check is never called. *)
Theorem C45_sealed_refuted procs : exists w r name uid opaque protocol fields, reachable procs w /\
  nth_error (rw_heap w) r = Some (CRec VBaseRtd (name :: VFalse :: uid :: VTrue :: opaque :: protocol :: fields)) /\
  exists c n, fst (rstep procs w (RType (VSym (s2b "child")) (VPtr r) VFalse VFalse VFalse [])) = ROk c /\
    descriptor (rw_heap (snd (rstep procs w (RType (VSym (s2b "child")) (VPtr r) VFalse VFalse VFalse [])))) c (VPtr r) n.
Proof.
  exists (snd (rrun procs rworld0 [RType (VSym (s2b "base")) VFalse VFalse VTrue VFalse []])), 0, (VSym (s2b "base")), VFalse, VFalse, VFalse, [].
  split; [eexists; reflexivity|]. split; [reflexivity|]. exists (VPtr 1), 0. split; [reflexivity|]. do 7 eexists. split; [reflexivity|]. split; reflexivity.
Qed.

(** A field declared (immutable x) can be mutated. *)
Definition immutable_ops : list rop :=
  [RElse (CPair (VSym (s2b "x")) VNull); RElse (CPair (VSym (s2b "immutable")) (VPtr 0));
   RType (VSym (s2b "point")) VFalse VFalse VFalse VFalse [VPtr 1]; RMake (VPtr 2) [VFix 1]; RGet (VPtr 2) (VFix 0) (VPtr 3)].
Theorem C45_immutable_refuted procs :
  let w := snd (rrun procs rworld0 immutable_ops) in
  let put := RPut (VPtr 2) (VFix 0) (VPtr 3) (VFix 2) in
  fst (rstep procs w (RGet (VPtr 2) (VFix 0) (VPtr 3))) = ROk (VFix 1) /\
  fst (rstep procs (snd (rstep procs w put)) (RGet (VPtr 2) (VFix 0) (VPtr 3))) = ROk (VFix 2).
Proof. split; reflexivity. Qed.

(** A type whose parent has a writer cannot be made: the inherited writer is given
    to the getter of record-writer, and the error procedure uses an unbound name. *)
Theorem C45_writer_refuted procs w r name uid sealed opaque fields wr : rtdp (rw_heap w) r = true -> tab_writer (rw_tabs w) r = Some wr -> rtdp (rw_heap w) wr = false ->
  tab_equal (rw_tabs w) r = None -> tab_hash (rw_tabs w) r = None ->
  rstep procs w (RType name r uid sealed opaque fields) = (RErr (EUnbound "v_"), w).
Proof.
  intros R W NW E H. assert (T : truthy r = true) by (destruct r; auto). unfold rstep, make_rtd. rewrite T. unfold tab_ref. rewrite R, W, E, H. cbn [rbind]. rewrite NW. reflexivity.
Qed.
Example C45_writer_refuted_met : let procs v := eqp v (VPtr 1) in
  let w := snd (rrun procs rworld0 [RType (VSym (s2b "base")) VFalse VFalse VFalse VFalse []; RElse (COther 0); RTab 2 (VPtr 0) (VPtr 1)]) in
  reachable procs w /\ rtdp (rw_heap w) (VPtr 0) = true /\ tab_writer (rw_tabs w) (VPtr 0) = Some (VPtr 1) /\ rtdp (rw_heap w) (VPtr 1) = false /\
  tab_equal (rw_tabs w) (VPtr 0) = None /\ tab_hash (rw_tabs w) (VPtr 0) = None.
Proof. split; [eexists; reflexivity|]. repeat split. Qed.

(** Field descriptors are not checked either: with the bare symbols that the prelude
    itself uses (prelude.min:2480), record-type-field-names reads outside them. *)
Theorem C45_field_names_refuted procs : exists w, reachable procs w /\ rtdp (rw_heap w) (VPtr 0) = true /\ field_names (rw_heap w) (VPtr 0) = RUndef.
Proof.
  exists (snd (rrun procs rworld0 [RType (VSym (s2b "syntax-exn")) VFalse VFalse VTrue VTrue [VSym (s2b "form"); VSym (s2b "subform")]])).
  split; [eexists; reflexivity|]. split; reflexivity.
Qed.

(** With descriptors that are lists of a word and a name, as define-record makes them, the
    names are returned in order, whatever happens to records in between. *)
Definition names (h : heap) (f n : val) : Prop := exists x d y, pair_at h f = Some (x, d) /\ pair_at h d = Some (n, y).
Lemma pair_kept procs w o v a d : good (rw_heap w) -> pair_at (rw_heap w) v = Some (a, d) -> pair_at (rw_heap (snd (rstep procs w o))) v = Some (a, d).
Proof.
  intros G. destruct w as [h t]. cbn [rw_heap] in *.
  assert (SN : forall c, pair_at h v = Some (a, d) -> pair_at (h ++ [c]) v = Some (a, d)).
  { intros c. unfold pair_at. destruct v as [| | | | | | | | | | | |m]; try discriminate. destruct (nth_error h m) eqn:N; [|discriminate]. intros E. rewrite nth_error_app1 by (apply nth_error_Some; congruence). rewrite N. exact E. }
  intros P. destruct o as [n p u s q fs|r args|r i u|r i u x|r u|k r p|c]; unfold rstep; cbn [rw_heap rw_tabs].
  - destruct (make_rtd procs h t n p u s q fs) as [[[v' h'] t']| | |] eqn:M; cbn [snd rw_heap]; auto.
    destruct (make_spec _ _ _ _ _ _ _ _ _ _ _ _ M) as [-> [-> _]]. now apply SN.
  - destruct (record_construct (fuel_of h) h r args) as [[v' h']| | |] eqn:M; cbn [snd rw_heap]; auto. unfold record_construct in M. destruct (rtdp h r); [|discriminate].
    match type of M with rbind ?x _ = _ => destruct x as [k| | |]; try discriminate end. cbn [rbind] in M.
    destruct (_ =? _); [|discriminate]. injection M as <- <-. now apply SN.
  - exact P.
  - destruct (record_put (fuel_of h) h r i u x) as [h'| | |] eqn:M; cbn [snd rw_heap]; auto.
    destruct (put_spec _ _ _ _ _ _ _ M) as [j [l [rt [fs [J [Q [E [N [L ->]]]]]]]]].
    revert P. unfold pair_at. destruct v as [| | | | | | | | | | | |m]; try discriminate. destruct (Nat.eq_dec m l) as [->|NE].
    + rewrite N. discriminate.
    + now rewrite upd_cell_ne by auto.
  - exact P.
  - destruct (tab_set _ _ _ _ _ _); exact P.
  - destruct (is_record c); [exact P|]. cbn [snd rw_heap]. now apply SN.
Qed.
Theorem C45_field_names procs w name parent uid sealed opaque fields rtd w1 ns : reachable procs w ->
  rstep procs w (RType name parent uid sealed opaque fields) = (ROk rtd, w1) -> Forall2 (names (rw_heap w)) fields ns ->
  forall ops, field_names (rw_heap (snd (rrun procs w1 ops))) rtd = ROk ns.
Proof.
  intros R ST F ops. assert (G := reachable_good _ _ R). assert (G1 : good (rw_heap w1)) by (replace w1 with (snd (rstep procs w (RType name parent uid sealed opaque fields))) by (now rewrite ST); now apply step_kept).
  assert (KP : forall v a d, pair_at (rw_heap w) v = Some (a, d) -> pair_at (rw_heap (snd (rrun procs w1 ops))) v = Some (a, d)).
  { intros v a d P. assert (P1 : pair_at (rw_heap w1) v = Some (a, d)) by (replace w1 with (snd (rstep procs w (RType name parent uid sealed opaque fields))) by (now rewrite ST); now apply pair_kept).
    clear - G1 P1. revert w1 G1 P1. induction ops as [|o q IH]; intros w1 G1 P1; [exact P1|]. rewrite rrun_cons. apply IH; [now apply step_kept|now apply pair_kept]. }
  destruct (run_kept procs ops w1 G1) as [_ K]. unfold rstep in ST. destruct (make_rtd procs (rw_heap w) (rw_tabs w) name parent uid sealed opaque fields) as [[[v h'] t']| | |] eqn:M; try discriminate.
  injection ST as <- <-. destruct (make_spec _ _ _ _ _ _ _ _ _ _ _ _ M) as [-> [-> _]]. cbn [rw_heap] in *.
  destruct (K (length (rw_heap w)) VBaseRtd (name :: parent :: uid :: sealed :: opaque :: VFalse :: fields)) as [fs' [N [_ E]]]; [rewrite nth_error_app2, Nat.sub_diag by lia; reflexivity|].
  rewrite (E eq_refl) in N. unfold field_names. rewrite (proj2 (rtdp_spec _ _)) by eauto. unfold rec_at. rewrite N. cbn [need rbind skipn].
  clear - F KP. revert KP. generalize (rw_heap (snd (rrun procs {| rw_heap := rw_heap w ++ [CRec VBaseRtd (name :: parent :: uid :: sealed :: opaque :: VFalse :: fields)]; rw_tabs := t' |} ops))) as H. intros H KP.
  induction F as [|f n fs ns [x [d [y [P1 P2]]]] F IH]; [reflexivity|]. cbn [cadrs]. rewrite (KP _ _ _ P1). cbn [need rbind snd]. rewrite (KP _ _ _ P2). cbn [need rbind fst].
  rewrite IH. reflexivity.
Qed.
Example C45_field_names_met : let procs v := eqp v (VPtr 9) in
  let w := snd (rrun procs rworld0 [RElse (CPair (VSym (s2b "x")) VNull); RElse (CPair (VSym (s2b "mutable")) (VPtr 0)); RElse (CPair (VSym (s2b "y")) VNull); RElse (CPair (VSym (s2b "immutable")) (VPtr 2))]) in
  reachable procs w /\ fst (rstep procs w (RType (VSym (s2b "point")) VFalse VFalse VFalse VFalse [VPtr 1; VPtr 3])) = ROk (VPtr 4) /\
  Forall2 (names (rw_heap w)) [VPtr 1; VPtr 3] [VSym (s2b "x"); VSym (s2b "y")].
Proof. split; [eexists; reflexivity|]. split; [reflexivity|]. repeat constructor; do 3 eexists; split; reflexivity. Qed.

(** ** Examples: a type with two fields, a subtype with one, an unrelated type *)
Definition ex_ops : list rop :=
  [RType (VSym (s2b "point")) VFalse VFalse VFalse VFalse [VTrue; VTrue]; RType (VSym (s2b "cpoint")) (VPtr 0) VFalse VFalse VFalse [VTrue];
   RType (VSym (s2b "other")) VFalse VFalse VFalse VFalse [VTrue]; RMake (VPtr 1) [VFix 10; VFix 20; VFix 30]; RMake (VPtr 2) [VFix 40]].
Definition ex_world : rworld := snd (rrun (fun _ => false) rworld0 ex_ops).
Example C45_ex_reachable : reachable (fun _ => false) ex_world. Proof. exists ex_ops. reflexivity. Qed.
Example C45_ex_point : descriptor (rw_heap ex_world) (VPtr 0) VFalse 2 /\ inherited (rw_heap ex_world) (VPtr 0) 0.
Proof. assert (D : descriptor (rw_heap ex_world) (VPtr 0) VFalse 2) by (do 7 eexists; split; [reflexivity|]; split; reflexivity). split; auto. eapply InhRoot; eauto. Qed.
Example C45_ex_cpoint : descriptor (rw_heap ex_world) (VPtr 1) (VPtr 0) 1 /\ inherited (rw_heap ex_world) (VPtr 1) 2.
Proof.
  assert (D : descriptor (rw_heap ex_world) (VPtr 1) (VPtr 0) 1) by (do 7 eexists; split; [reflexivity|]; split; reflexivity). split; auto.
  destruct C45_ex_point as [D0 I0]. apply (InhChild _ _ _ _ _ _ D ltac:(discriminate) D0 0 I0).
Qed.
Example C45_ex_instance : record_of (rw_heap ex_world) (VPtr 3) (VPtr 1) [VFix 10; VFix 20; VFix 30] /\ subtype (rw_heap ex_world) (VPtr 1) (VPtr 0) /\
  instance (rw_heap ex_world) (VPtr 3) (VPtr 0).
Proof.
  assert (R : record_of (rw_heap ex_world) (VPtr 3) (VPtr 1) [VFix 10; VFix 20; VFix 30]) by (exists 3; split; [|split]; [reflexivity|reflexivity|discriminate]).
  assert (Sb : subtype (rw_heap ex_world) (VPtr 1) (VPtr 0)) by (eapply SubParent; [apply C45_ex_cpoint|discriminate|eapply SubSelf; apply C45_ex_point]).
  split; [exact R|]. split; [exact Sb|]. exists (VPtr 1), [VFix 10; VFix 20; VFix 30]. auto.
Qed.
Example C45_ex_not_instance : ~ instance (rw_heap ex_world) (VPtr 4) (VPtr 0).
Proof.
  intros X. assert (Y := proj1 (C45_predicate _ ex_world (VPtr 0) (VPtr 4) _ _ C45_ex_reachable (proj1 C45_ex_point)) X). discriminate.
Qed.
Example C45_ex_history : let w := snd (rrun (fun _ => false) ex_world [RPut (VPtr 0) (VFix 1) (VPtr 3) (VFix 21); RPut (VPtr 1) (VFix 0) (VPtr 3) (VFix 31); RPut (VPtr 0) (VFix 0) (VPtr 4) VTrue]) in
  map (fun o => fst (rstep (fun _ => false) w o)) [RGet (VPtr 0) (VFix 0) (VPtr 3); RGet (VPtr 0) (VFix 1) (VPtr 3); RGet (VPtr 1) (VFix 0) (VPtr 3); RGet (VPtr 2) (VFix 0) (VPtr 4)] =
  [ROk (VFix 10); ROk (VFix 21); ROk (VFix 31); ROk (VFix 40)].
Proof. reflexivity. Qed.

Print Assumptions C45_never_undefined.
Print Assumptions C45_predicate.
Print Assumptions C45_constructor.
Print Assumptions C45_initial_value.
Print Assumptions C45_no_overlap.
Print Assumptions C45_rejects.
Print Assumptions C45_last_store.
Print Assumptions C45_sealed_refuted.
Print Assumptions C45_immutable_refuted.
Print Assumptions C45_writer_refuted.
Print Assumptions C45_field_names_refuted.
Print Assumptions C45_field_names.
