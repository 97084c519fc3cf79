(** Lemmas on structural equality and hashing. *)
From Coq Require Import ZArith NArith Bool Ascii String List Lia.
From Verif Require Import Base Outcome Arith Symbol Heap Equal.
Import ListNotations.

(** Number of nodes of a datum. *)
Fixpoint osize (o : obj) : nat :=
  match o with
  | OPair a d => S (osize a + osize d)
  | OVec l => S (fold_right (fun x n => osize x + n) 0 l)
  | OBox x => S (osize x)
  | _ => 1
  end.
Definition lsize (l : list obj) : nat := fold_right (fun x n => osize x + n) 0 l.
Lemma osize_pos o : 0 < osize o.
Proof. destruct o; simpl; lia. Qed.

(** [decides r P]: the answer is there and is right. *)
Definition decides (r : option bool) (P : Prop) : Prop :=
  exists b, r = Some b /\ (b = true <-> P).

Lemma decides_true (P : Prop) : P -> decides (Some true) P.
Proof. exists true; tauto. Qed.
Lemma decides_false (P : Prop) : ~ P -> decides (Some false) P.
Proof. exists false; split; auto; split; [discriminate|tauto]. Qed.

Lemma reads_list_length h vs xs : reads_list h vs xs -> length vs = length xs.
Proof. induction 1; simpl; auto. Qed.

Definition goodc (h : heap) (v : val) (x : obj) : Prop :=
  forall w y fuel, reads h w y -> osize x <= fuel -> decides (equal_c fuel h v w) (x = y).

Lemma all_equal_ok h (eq : val -> val -> option bool) vs xs :
  reads_list h vs xs ->
  forall ws ys, reads_list h ws ys -> length xs = length ys ->
  (forall v x, In v vs -> In x xs -> reads h v x -> forall w y, reads h w y -> decides (eq v w) (x = y)) ->
  decides (all_equal eq vs ws) (xs = ys).
Proof.
  induction 1 as [|v vs x xs Hv Hvs IH]; intros ws ys Hw Hl He.
  - destruct ys; [|discriminate]. inversion Hw; subst. simpl. apply decides_true; auto.
  - destruct ys as [|y ys]; [discriminate|]. inversion Hw; subst. simpl.
    destruct (He v x ltac:(left; auto) ltac:(left; auto) Hv v0 y ltac:(assumption)) as (b & E & Hb).
    rewrite E. destruct b.
    + assert (x = y) by (apply Hb; auto). subst.
      destruct (IH vs0 ys ltac:(assumption) ltac:(simpl in Hl; congruence)) as (b2 & E2 & Hb2).
      { intros; eapply He; eauto; right; auto. }
      exists b2; split; auto. rewrite Hb2. split; congruence.
    + apply decides_false. intros E2; inversion E2; subst. destruct Hb as [_ Hb].
      discriminate Hb; auto.
Qed.

(** What a value whose cell is known reads as. *)
Lemma reads_cell h v x :
  reads h v x ->
  match cell_of h v with
  | Some (CPair a d) => exists p q, x = OPair p q /\ reads h a p /\ reads h d q
  | Some (CVec vs) => exists xs, x = OVec xs /\ reads_list h vs xs
  | Some (CStr b) => x = OStr (cstr b)
  | Some (CBox w) => exists y, x = OBox y /\ reads h w y
  | Some (CSyntax _ _) | Some (COther _) => exists l, v = VPtr l /\ x = OOther (N.of_nat l)
  | Some (CHash _) | Some (CRec _ _) => False
  | None => match x with
            | OPair _ _ | OVec _ | OStr _ | OBox _ | OOther _ => False
            | _ => True
            end
  end.
Proof.
  destruct 1; simpl; auto; try (rewrite H; eauto).
  exists []; split; auto; constructor.
Qed.

Lemma reads_inj_atom h v w x :
  cell_of h v = None -> reads h v x -> reads h w x -> v = w.
Proof.
  intros Hc Hv Hw. destruct Hv; simpl in Hc; try congruence; inversion Hw; subst; auto.
Qed.

Lemma equal_c_ok h :
  forall n x v, osize x <= n -> reads h v x -> goodc h v x.
Proof.
  induction n as [|n IH]; intros x v Hs Hv w y fuel Hw Hf.
  { pose proof (osize_pos x); lia. }
  destruct fuel as [|f]; [pose proof (osize_pos x); lia|]. simpl.
  destruct (eqp v w) eqn:E.
  { apply eqp_eq in E; subst. apply decides_true. eapply reads_fun; eauto. }
  assert (Hne : v <> w) by (intros ->; rewrite eqp_refl in E; discriminate).
  pose proof (reads_cell _ _ _ Hv) as Cv. pose proof (reads_cell _ _ _ Hw) as Cw.
  destruct (cell_of h v) as [cv|] eqn:Ev.
  2: { destruct (cell_of h w) as [cw|] eqn:Ew; apply decides_false; intros ->.
       - destruct cw; repeat match goal with H : exists _, _ |- _ => destruct H | H : _ /\ _ |- _ => destruct H end;
           subst; simpl in Cv; auto.
       - apply Hne. eapply reads_inj_atom; eauto. }
  destruct cv; simpl in Cv; try tauto.
  - destruct Cv as (p & q & -> & Ha & Hd). simpl in Hs, Hf.
    destruct (cell_of h w) as [[]|] eqn:Ew;
      try (apply decides_false; intros <-;
           repeat match goal with H : exists _, _ |- _ => destruct H | H : _ /\ _ |- _ => destruct H end;
           simpl in *; congruence || tauto).
    destruct Cw as (p' & q' & -> & Ha' & Hd').
    destruct (IH p a ltac:(lia) Ha a0 p' f Ha' ltac:(lia)) as (b & Eb & Hb). rewrite Eb.
    destruct b.
    + destruct (IH q d ltac:(lia) Hd d0 q' f Hd' ltac:(lia)) as (b2 & Eb2 & Hb2).
      exists b2; split; auto. rewrite Hb2. assert (p = p') by (apply Hb; auto). subst.
      split; congruence.
    + apply decides_false. intros E2; inversion E2; subst.
      destruct Hb as [_ Hb]; discriminate Hb; auto.
  - destruct Cv as (xs0 & -> & Hl). simpl in Hs, Hf. fold (lsize xs0) in *.
    destruct (cell_of h w) as [[]|] eqn:Ew;
      try (apply decides_false; intros <-;
           repeat match goal with H : exists _, _ |- _ => destruct H | H : _ /\ _ |- _ => destruct H end;
           simpl in *; congruence || tauto).
    destruct Cw as (ys0 & -> & Hl').
    pose proof (reads_list_length _ _ _ Hl). pose proof (reads_list_length _ _ _ Hl').
    destruct (Nat.eqb_spec (length xs) (length xs1)).
    + destruct (all_equal_ok h (equal_c f h) xs xs0 Hl xs1 ys0 Hl' ltac:(congruence)) as (b & Eb & Hb).
      { intros u z Hu Hz Hr w' y' Hw'.
        assert (osize z <= lsize xs0).
        { clear - Hz. induction xs0; simpl in *; [tauto|]. destruct Hz; subst; [lia|]. apply IHxs0 in H; lia. }
        apply (IH z u ltac:(lia) Hr w' y' f Hw' ltac:(lia)). }
      exists b; split; auto. rewrite Hb. split; congruence.
    + apply decides_false. intros E2; inversion E2; subst. congruence.
  - subst x. destruct (cell_of h w) as [[]|] eqn:Ew;
      try (apply decides_false; intros <-;
           repeat match goal with H : exists _, _ |- _ => destruct H | H : _ /\ _ |- _ => destruct H end;
           simpl in *; congruence || tauto).
    subst y. exists (bytes_eqb (cstr buf) (cstr buf0)); split; auto.
    rewrite bytes_eqb_spec. split; congruence.
  - destruct Cv as (z & -> & Hz). simpl in Hs, Hf.
    destruct (cell_of h w) as [[]|] eqn:Ew;
      try (apply decides_false; intros <-;
           repeat match goal with H : exists _, _ |- _ => destruct H | H : _ /\ _ |- _ => destruct H end;
           simpl in *; congruence || tauto).
    destruct Cw as (z' & -> & Hz').
    destruct (IH z v0 ltac:(lia) Hz v1 z' f Hz' ltac:(lia)) as (b & Eb & Hb).
    exists b; split; auto. rewrite Hb. split; congruence.
  - destruct Cv as (l & -> & ->).
    destruct (cell_of h w) as [[]|] eqn:Ew;
      apply decides_false; intros <-;
           repeat match goal with H : exists _, _ |- _ => destruct H | H : _ /\ _ |- _ => destruct H end;
           simpl in *; try congruence; try tauto.
    all: subst; apply Hne; match goal with H : OOther _ = OOther _ |- _ => inversion H end; f_equal; lia.
  - destruct Cv as (l & -> & ->).
    destruct (cell_of h w) as [[]|] eqn:Ew;
      apply decides_false; intros <-;
           repeat match goal with H : exists _, _ |- _ => destruct H | H : _ /\ _ |- _ => destruct H end;
           simpl in *; try congruence; try tauto.
    all: subst; apply Hne; match goal with H : OOther _ = OOther _ |- _ => inversion H end; f_equal; lia.
Qed.

Lemma equal_p_ok ext h :
  forall n x v, osize x <= n -> reads h v x ->
  forall w y fuel, reads h w y -> osize x < fuel -> decides (equal_p ext fuel h v w) (x = y).
Proof.
  induction n as [|n IH]; intros x v Hs Hv w y fuel Hw Hf.
  { pose proof (osize_pos x); lia. }
  destruct fuel as [|f]; [lia|]. simpl.
  destruct (eqp v w) eqn:E.
  { apply eqp_eq in E; subst. apply decides_true. eapply reads_fun; eauto. }
  assert (Hne : v <> w) by (intros ->; rewrite eqp_refl in E; discriminate).
  pose proof (reads_cell _ _ _ Hv) as Cv. pose proof (reads_cell _ _ _ Hw) as Cw.
  destruct (cell_of h v) as [cv|] eqn:Ev; [|apply (equal_c_ok h _ x v Hs Hv w y f Hw); lia].
  destruct cv; simpl in Cv; try tauto.
  - destruct Cv as (p & q & -> & Ha & Hd). simpl in Hs, Hf.
    destruct (cell_of h w) as [[]|] eqn:Ew;
      try (apply decides_false; intros <-;
           repeat match goal with H : exists _, _ |- _ => destruct H | H : _ /\ _ |- _ => destruct H end;
           simpl in *; congruence || tauto).
    destruct Cw as (p' & q' & -> & Ha' & Hd').
    destruct (IH p a ltac:(lia) Ha a0 p' f Ha' ltac:(lia)) as (b & Eb & Hb). rewrite Eb.
    destruct b.
    + destruct (IH q d ltac:(lia) Hd d0 q' f Hd' ltac:(lia)) as (b2 & Eb2 & Hb2).
      exists b2; split; auto. rewrite Hb2. assert (p = p') by (apply Hb; auto). subst.
      split; congruence.
    + apply decides_false. intros E2; inversion E2; subst.
      destruct Hb as [_ Hb]; discriminate Hb; auto.
  - destruct Cv as (xs0 & -> & Hl). simpl in Hs, Hf. fold (lsize xs0) in *.
    destruct (cell_of h w) as [[]|] eqn:Ew;
      try (apply decides_false; intros <-;
           repeat match goal with H : exists _, _ |- _ => destruct H | H : _ /\ _ |- _ => destruct H end;
           simpl in *; congruence || tauto).
    destruct Cw as (ys0 & -> & Hl').
    pose proof (reads_list_length _ _ _ Hl). pose proof (reads_list_length _ _ _ Hl').
    destruct (Nat.eqb_spec (length xs) (length xs1)).
    + destruct (all_equal_ok h (equal_p ext f h) xs xs0 Hl xs1 ys0 Hl' ltac:(congruence)) as (b & Eb & Hb).
      { intros u z Hu Hz Hr w' y' Hw'.
        assert (osize z <= lsize xs0).
        { clear - Hz. induction xs0; simpl in *; [tauto|]. destruct Hz; subst; [lia|]. apply IHxs0 in H; lia. }
        apply (IH z u ltac:(lia) Hr w' y' f Hw' ltac:(lia)). }
      exists b; split; auto. rewrite Hb. split; congruence.
    + apply decides_false. intros E2; inversion E2; subst. congruence.
  - apply (equal_c_ok h _ x v Hs Hv w y f Hw); lia.
  - destruct Cv as (z & -> & Hz). simpl in Hs, Hf.
    destruct (cell_of h w) as [[]|] eqn:Ew;
      try (apply decides_false; intros <-;
           repeat match goal with H : exists _, _ |- _ => destruct H | H : _ /\ _ |- _ => destruct H end;
           simpl in *; congruence || tauto).
    destruct Cw as (z' & -> & Hz').
    destruct (IH z v0 ltac:(lia) Hz v1 z' f Hz' ltac:(lia)) as (b & Eb & Hb).
    exists b; split; auto. rewrite Hb. split; congruence.
  - apply (equal_c_ok h _ x v Hs Hv w y f Hw); lia.
  - apply (equal_c_ok h _ x v Hs Hv w y f Hw); lia.
Qed.

(** ** Hashing *)

Lemma hash_all_ext (r1 r2 : val -> Z -> option (outcome Z)) h vs xs :
  reads_list h vs xs ->
  forall ws hc, reads_list h ws xs ->
  (forall v w x hc, In x xs -> reads h v x -> reads h w x -> r1 v hc = r2 w hc) ->
  hash_all r1 vs hc = hash_all r2 ws hc.
Proof.
  induction 1 as [|v vs x xs Hv Hvs IH]; intros ws hc Hw He; inversion Hw; subst; simpl; auto.
  rewrite (He v v0 x hc) by (simpl; auto).
  destruct (r2 v0 hc) as [[]|]; auto. apply IH; auto. intros; eapply He; eauto; right; auto.
Qed.

Lemma hash_loop_ok addr ext h :
  forall n x, osize x <= n -> forall v w hc f, reads h v x -> reads h w x -> osize x <= f ->
  hash_loop addr ext f h v hc = hash_loop addr ext f h w hc /\ hash_loop addr ext f h v hc <> None.
Proof.
  induction n as [|n IH]; intros x Hs v w hc f Hv Hw Hf.
  { pose proof (osize_pos x); lia. }
  destruct f as [|f]; [pose proof (osize_pos x); lia|].
  destruct (cell_of h v) as [cv|] eqn:Ev.
  2: { pose proof (reads_inj_atom _ _ _ _ Ev Hv Hw); subst w. split; auto.
       simpl. rewrite Ev. destruct v; discriminate. }
  destruct (cell_of h w) as [cw|] eqn:Ew.
  2: { pose proof (reads_inj_atom _ _ _ _ Ew Hw Hv); subst w. congruence. }
  pose proof (reads_cell _ _ _ Hv) as Cv. pose proof (reads_cell _ _ _ Hw) as Cw.
  rewrite Ev in Cv; rewrite Ew in Cw.
  assert (Hstep : forall u c, cell_of h u = Some c ->
    hash_loop addr ext (S f) h u hc =
    match c with
    | CStr s => Some (Val (name_hash s))
    | CPair a d => match hash_loop addr ext f h a hc with
                   | Some (Val hc') => hash_loop addr ext f h d hc' | o => o end
    | CVec xs => hash_all (hash_loop addr ext f h) xs hc
    | CBox v => match clong (hc + 410225874) with
                | Val hc' => hash_loop addr ext f h v hc' | Err e => Some (Err e) | Undef => Some Undef end
    | CHash _ | CRec _ _ => match u with VPtr l => Some (ext l) | _ => Some Undef end
    | CSyntax _ _ | COther _ => Some (Val (Z.of_N (eq_hash addr u)))
    end).
  { intros u c Hc. destruct u; cbn [cell_of] in Hc; try discriminate; cbn [hash_loop cell_of]; rewrite ?Hc; auto.
    injection Hc as <-; auto. }
  rewrite (Hstep v _ Ev), (Hstep w _ Ew). clear Hstep.
  destruct cv; simpl in Cv; try tauto.
  - destruct Cv as (p & q & -> & Ha & Hd). simpl in Hs, Hf.
    destruct cw; repeat match goal with H : exists _, _ |- _ => destruct H | H : _ /\ _ |- _ => destruct H end; try discriminate; try tauto.
    match goal with H : OPair _ _ = OPair _ _ |- _ => injection H as <- <- end.
    destruct (IH p ltac:(lia) a a0 hc f ltac:(assumption) ltac:(assumption) ltac:(lia)) as [E1 N1].
    rewrite <- E1. destruct (hash_loop addr ext f h a hc) as [[]|]; try tauto; try (split; [auto|discriminate]).
    apply (IH q); auto; lia.
  - destruct Cv as (xs0 & -> & Hl). simpl in Hs, Hf. fold (lsize xs0) in *.
    destruct cw; repeat match goal with H : exists _, _ |- _ => destruct H | H : _ /\ _ |- _ => destruct H end; try discriminate; try tauto.
    match goal with H : OVec _ = OVec _ |- _ => injection H as <- end.
    assert (Hin : forall z, In z xs0 -> osize z <= lsize xs0).
    { clear. induction xs0; simpl in *; [tauto|]. intros z [->|Hz]; [lia|]. apply IHxs0 in Hz; lia. }
    split.
    + eapply hash_all_ext; eauto. intros. apply (IH x); auto; apply Hin in H; lia.
    + clear - Hl IH Hin Hs Hf. revert hc; induction Hl; intros hc; simpl; [discriminate|].
      destruct (IH x ltac:(specialize (Hin x ltac:(left; auto)); lia) v v hc f ltac:(auto) ltac:(auto)
                  ltac:(specialize (Hin x ltac:(left; auto)); lia)) as [_ N1].
      destruct (hash_loop addr ext f h v hc) as [[]|]; try tauto; try discriminate.
      apply IHHl; simpl in *; try lia. intros z Hz.
      clear - Hz. induction xs; simpl in *; [tauto|]. destruct Hz as [->|Hz]; [lia|]. apply IHxs in Hz; lia.
  - subst x. destruct cw; repeat match goal with H : exists _, _ |- _ => destruct H | H : _ /\ _ |- _ => destruct H end; try discriminate; try tauto.
    injection Cw as Cw. unfold name_hash. rewrite Cw. split; [auto|discriminate].
  - destruct Cv as (z & -> & Hz). simpl in Hs, Hf.
    destruct cw; repeat match goal with H : exists _, _ |- _ => destruct H | H : _ /\ _ |- _ => destruct H end; try discriminate; try tauto.
    match goal with H : OBox _ = OBox _ |- _ => injection H as <- end.
    destruct (clong (hc + 410225874)); try (split; [auto|discriminate]).
    apply (IH z); auto; lia.
  - destruct Cv as (l & -> & ->).
    destruct cw; repeat match goal with H : exists _, _ |- _ => destruct H | H : _ /\ _ |- _ => destruct H end; try discriminate; try tauto.
    all: subst w; match goal with H : OOther _ = OOther _ |- _ => injection H as H end;
      assert (l = x) by lia; subst; split; [auto|discriminate].
  - destruct Cv as (l & -> & ->).
    destruct cw; repeat match goal with H : exists _, _ |- _ => destruct H | H : _ /\ _ |- _ => destruct H end; try discriminate; try tauto.
    all: subst w; match goal with H : OOther _ = OOther _ |- _ => injection H as H end;
      assert (l = x) by lia; subst; split; [auto|discriminate].
Qed.

(** Hash codes stay in range: leaves give 62 bits, each box adds a constant. *)
Definition box_step : Z := 410225874.
Definition hbound (k : nat) : Z := (2 ^ 62 + Z.of_nat k * box_step)%Z.

Lemma hash_bytes_range s : (0 <= Z.of_N (ht_hash_bytes s) < 2 ^ 62)%Z.
Proof.
  unfold ht_hash_bytes.
  assert (H : (fold_left (fun h c => Z.to_N ((Z.of_N h * 65 + schar c) mod 2 ^ 64)) s 5381 < 2 ^ 64)%N).
  { assert (G : forall s a, (a < 2 ^ 64)%N ->
      (fold_left (fun h c => Z.to_N ((Z.of_N h * 65 + schar c) mod 2 ^ 64)) s a < 2 ^ 64)%N).
    { clear. induction s as [|c s IH]; intros a Ha; [exact Ha|]. cbn [fold_left]. apply IH.
      assert (R : (0 <= (Z.of_N a * 65 + schar c) mod 2 ^ 64 < 2 ^ 64)%Z) by (apply Z.mod_pos_bound; lia).
      lia. }
    apply G; lia. }
  remember (fold_left _ s _) as u. rewrite N.shiftr_div_pow2.
  assert (N.div u (2 ^ 2) < 2 ^ 62)%N.
  { apply N.div_lt_upper_bound; [discriminate|]. change (2 ^ 2 * 2 ^ 62)%N with (2 ^ 64)%N. auto. }
  remember (N.div u (2 ^ 2)) as q. lia.
Qed.
Lemma name_hash_range s k : (0 <= name_hash s <= hbound k)%Z.
Proof. unfold name_hash, hbound, box_step. pose proof (hash_bytes_range (cstr s)). lia. Qed.
Lemma eq_hash_range addr v k : (0 <= Z.of_N (eq_hash addr v) <= hbound k)%Z.
Proof.
  unfold hbound, box_step. unfold eq_hash.
  destruct v; match goal with |- context [ht_hash_bytes ?s] => pose proof (hash_bytes_range s) end; lia.
Qed.

Lemma hash_loop_range addr ext h :
  forall n x, osize x <= n -> forall v hc f k, reads h v x -> osize x <= f ->
  (0 <= hc <= hbound k)%Z -> (Z.of_nat (k + osize x) * box_step < 2 ^ 62)%Z ->
  exists z, hash_loop addr ext f h v hc = Some (Val z) /\ (0 <= z <= hbound (k + osize x))%Z.
Proof.
  induction n as [|n IH]; intros x Hs v hc f k Hv Hf Hh Hk.
  { pose proof (osize_pos x); lia. }
  destruct f as [|f]; [pose proof (osize_pos x); lia|].
  pose proof (reads_cell _ _ _ Hv) as Cv.
  destruct (cell_of h v) as [cv|] eqn:Ev.
  2: { cbn [hash_loop]. rewrite Ev.
       destruct v; try (eexists; split; [reflexivity|]; auto using name_hash_range, eq_hash_range). }
  assert (Hstep : 
    hash_loop addr ext (S f) h v hc =
    match cv with
    | CStr s => Some (Val (name_hash s))
    | CPair a d => match hash_loop addr ext f h a hc with
                   | Some (Val hc') => hash_loop addr ext f h d hc' | o => o end
    | CVec xs => hash_all (hash_loop addr ext f h) xs hc
    | CBox v => match clong (hc + 410225874) with
                | Val hc' => hash_loop addr ext f h v hc' | Err e => Some (Err e) | Undef => Some Undef end
    | CHash _ | CRec _ _ => match v with VPtr l => Some (ext l) | _ => Some Undef end
    | CSyntax _ _ | COther _ => Some (Val (Z.of_N (eq_hash addr v)))
    end).
  { destruct v; cbn [cell_of] in Ev; try discriminate; cbn [hash_loop cell_of]; rewrite ?Ev; auto.
    injection Ev as <-; auto. }
  rewrite Hstep; clear Hstep.
  destruct cv; simpl in Cv; try tauto.
  - destruct Cv as (p & q & -> & Ha & Hd). cbn [osize] in *.
    destruct (IH p ltac:(lia) a hc f k Ha ltac:(lia) Hh ltac:(unfold box_step in *; lia)) as (z & -> & Hz).
    destruct (IH q ltac:(lia) d z f (k + osize p) Hd ltac:(lia) Hz ltac:(unfold box_step in *; lia)) as (z2 & -> & Hz2).
    exists z2; split; auto. unfold hbound, box_step in *; lia.
  - destruct Cv as (xs0 & -> & Hl). cbn [osize] in *. fold (lsize xs0) in *.
    assert (G : exists z, hash_all (hash_loop addr ext f h) xs hc = Some (Val z) /\ (0 <= z <= hbound (k + lsize xs0))%Z).
    { assert (Hf' : lsize xs0 <= f) by lia. assert (Hs' : lsize xs0 <= n) by lia.
      assert (Hk' : (Z.of_nat (k + lsize xs0) * box_step < 2 ^ 62)%Z) by (unfold box_step in *; lia).
      clear Hk Hf Hs Hv Ev. revert hc k Hh Hk'.
      induction Hl as [|u us y ys Hy Hys IHl]; intros hc k Hh Hk.
      - exists hc; split; auto. change (lsize []) with 0. rewrite Nat.add_0_r. auto.
      - cbn [hash_all]. change (lsize (y :: ys)) with (osize y + lsize ys) in *.
        destruct (IH y ltac:(lia) u hc f k Hy ltac:(lia) Hh ltac:(unfold box_step in *; lia)) as (z & -> & Hz).
        destruct (IHl ltac:(lia) ltac:(lia) z (k + osize y) Hz ltac:(unfold box_step in *; lia)) as (z2 & -> & Hz2).
        exists z2; split; auto. unfold hbound, box_step in *; lia. }
    destruct G as (z & -> & Hz). exists z; split; auto. unfold hbound, box_step in *; lia.
  - exists (name_hash buf); split; auto using name_hash_range.
  - destruct Cv as (z & -> & Hz). cbn [osize] in *.
    assert (clong (hc + 410225874) = Val (hc + 410225874)%Z) as ->.
    { unfold clong. replace (is_longb (hc + 410225874)) with true; auto. symmetry. apply is_longb_spec.
      unfold is_long, hbound, box_step in *. lia. }
    destruct (IH z ltac:(lia) v0 (hc + 410225874)%Z f (S k) Hz ltac:(lia)) as (z2 & -> & Hz2);
      try (unfold hbound, box_step in *; lia).
    exists z2; split; auto. unfold hbound, box_step in *; lia.
  - eexists; split; [reflexivity|]. apply eq_hash_range.
  - eexists; split; [reflexivity|]. apply eq_hash_range.
Qed.
