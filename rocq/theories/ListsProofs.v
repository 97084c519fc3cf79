(** Lemmas on the list operations. *)
From Coq Require Import ZArith NArith Bool Ascii String List Lia.
From Verif Require Import Base Outcome Arith Heap HeapM Equal EqualProofs Lists.
Import ListNotations.

(** ** Specification of calls to a procedure argument

    [calls f h argss rs e h']: starting from heap [h], the procedure [f] is called
    once on each argument list of [argss], in order, with nothing but allocation
    happening in between; the results are [rs].  If [e] is an error, it was raised
    by the first call without a result and no further call was made.  [h'] is the
    heap after the last call. *)
Inductive calls (f : proc) : heap -> list (list val) -> list val -> option herr -> heap -> Prop :=
| CallsDone h : calls f h [] [] None h
| CallsErr h h1 h2 args rest e :
    extends h h1 -> f args h1 = HErr e h2 -> calls f h (args :: rest) [] (Some e) h2
| CallsStep h h1 h2 h3 args rest r rs e :
    extends h h1 -> f args h1 = HOk r h2 -> calls f h2 rest rs e h3 ->
    calls f h (args :: rest) (r :: rs) e h3.

(** The procedure terminates, is free of undefined behaviour and does not mutate
    pairs (it may allocate, raise, and mutate anything else). *)
Definition keeps_pairs (f : proc) : Prop :=
  forall args h, match f args h with
                 | HOk _ h' | HErr _ h' => pairs_kept h h'
                 | HUndef | HFuel => False
                 end.

Lemma m_car_ok h v a d : pair_at h v = Some (a, d) -> m_car v h = HOk a h.
Proof. unfold m_car. now intros ->. Qed.
Lemma m_cdr_ok h v a d : pair_at h v = Some (a, d) -> m_cdr v h = HOk d h.
Proof. unfold m_cdr. now intros ->. Qed.
Lemma if_pair_ok h v a d e m : pair_at h v = Some (a, d) -> if_pair v e m h = m h.
Proof. unfold if_pair, pairp. now intros ->. Qed.
Lemma nullp_cons h v x xs : list_at h v (x :: xs) -> nullp v = false.
Proof. inversion 1; auto. Qed.
Lemma list_at_nil h v : list_at h v [] -> v = VNull.
Proof. inversion 1; auto. Qed.
Lemma bind_ok {A B} (m : M A) (k : A -> M B) h a h' : m h = HOk a h' -> bind m k h = k a h'.
Proof. unfold bind. now intros ->. Qed.
Lemma m_cons_ok a d h : m_cons a d h = HOk (VPtr (length h)) (h ++ [CPair a d]).
Proof. auto. Qed.
Lemma list_at_new h a d xs : list_at h d xs -> list_at (h ++ [CPair a d]) (VPtr (length h)) (a :: xs).
Proof.
  intros. econstructor; [apply nth_snoc_new|]. eapply list_at_ext; eauto using extends_snoc.
Qed.

Ltac st H := erewrite bind_ok by (first [eapply m_car_ok; exact H | eapply m_cdr_ok; exact H]).
Ltac stc := erewrite bind_ok by (apply m_cons_ok).

(** ** list? *)

Lemma listp_true h v fuel : listp fuel h v = Some true -> exists xs, list_at h v xs /\ length xs <= fuel.
Proof.
  revert v; induction fuel as [|f IH]; intros v; simpl.
  - destruct (pair_at h v) as [[a d]|] eqn:E; [discriminate|].
    destruct v; simpl; intros [=]; try congruence. exists []; split; auto; constructor.
  - destruct (pair_at h v) as [[a d]|] eqn:E.
    + intros H. apply IH in H. destruct H as (xs & H & L).
      apply pair_at_inv in E. destruct E as (l & -> & E).
      exists (a :: xs); split; [econstructor; eauto|simpl; lia].
    + destruct v; simpl; intros [=]; try congruence. exists []; split; [constructor|simpl; lia].
Qed.
Lemma listp_ok h v xs fuel : list_at h v xs -> length xs <= fuel -> listp fuel h v = Some true.
Proof.
  intros H; revert fuel; induction H; intros fuel Hf.
  - destruct fuel; auto.
  - destruct fuel; [simpl in Hf; lia|]. cbn [listp]. rewrite (pair_at_cons _ _ _ _ H).
    apply IHlist_at. simpl in Hf; lia.
Qed.
Lemma listp_false h v fuel : listp fuel h v = Some false -> forall xs, ~ list_at h v xs.
Proof.
  revert v; induction fuel as [|f IH]; intros v H xs Hl; simpl in H;
    (destruct Hl; [discriminate|]); rewrite (pair_at_cons _ _ _ _ H0) in H; try discriminate.
  eapply IH; eauto.
Qed.
Lemma listp_none h v fuel : listp fuel h v = None -> forall xs, list_at h v xs -> fuel < length xs.
Proof.
  intros H xs Hl. destruct (Nat.lt_ge_cases fuel (length xs)) as [|Hge]; auto.
  rewrite (listp_ok _ _ _ _ Hl Hge) in H. discriminate.
Qed.

(** ** length *)

Lemma list_length_ok h v xs fuel n :
  list_at h v xs -> length xs <= fuel -> list_length fuel v n h = HOk (n + Z.of_nat (length xs))%Z h.
Proof.
  intros H; revert fuel n; induction H; intros fuel n Hf.
  - destruct fuel; cbn; f_equal; lia.
  - destruct fuel; [simpl in Hf; lia|]. cbn [list_length]. rewrite (pair_at_cons _ _ _ _ H).
    rewrite IHlist_at by (simpl in Hf; lia). f_equal. cbn [length]. lia.
Qed.

Lemma p_length_spec fuel v h :
  match p_length fuel v h with
  | HOk r h' => h' = h /\ exists xs, list_at h v xs /\ r = VFix (Z.of_nat (length xs))
  | HErr e h' => h' = h /\ e = EArg "length" v /\ forall xs, ~ list_at h v xs
  | HUndef => False
  | HFuel => forall xs, list_at h v xs -> fuel < length xs
  end.
Proof.
  unfold p_length, m_listp, bind. destruct (listp fuel h v) as [[]|] eqn:E.
  - apply listp_true in E. destruct E as (xs & Hl & Hf).
    rewrite (list_length_ok _ _ _ _ _ Hl Hf). split; auto. exists xs; auto.
  - split; auto. split; auto. eapply listp_false; eauto.
  - eapply listp_none; eauto.
Qed.

(** ** make-list *)

Lemma make_list_ok n init : forall h v xs, list_at h v xs ->
  exists r h', make_list n init v h = HOk r h' /\ extends h h' /\ list_at h' r (repeat init n ++ xs).
Proof.
  induction n as [|n IH]; intros h v xs H.
  - exists v, h. repeat split; auto using extends_refl.
  - cbn [make_list]. rewrite (bind_ok _ _ _ _ _ (m_cons_ok _ _ _)).
    destruct (IH _ _ _ (list_at_new h init v xs H)) as (r & h' & E & X & L).
    exists r, h'. split; [auto|]. split; [eapply extends_trans; eauto using extends_snoc|].
    replace (repeat init (S n) ++ xs) with (repeat init n ++ init :: xs); auto.
    simpl. clear. induction n; simpl; congruence.
Qed.

(** ** reverse *)

Lemma reverse_ok xs : forall h v acc ys fuel,
  list_at h v xs -> list_at h acc ys -> length xs <= fuel ->
  exists r h', list_reverse fuel v acc h = HOk r h' /\ extends h h' /\ list_at h' r (rev xs ++ ys).
Proof.
  induction xs as [|x xs IH]; intros h v acc ys fuel Hv Ha Hf.
  - apply list_at_nil in Hv; subst. exists acc, h. destruct fuel; repeat split; auto using extends_refl.
  - destruct (list_at_cons_inv _ _ _ _ Hv) as (l & d & -> & E & Hd & P).
    destruct fuel as [|f]; [simpl in Hf; lia|]. cbn [list_reverse nullp].
    st P. stc.
    assert (P' : pair_at (h ++ [CPair x acc]) (VPtr l) = Some (x, d))
      by (eapply pair_at_kept; eauto using kept_snoc).
    st P'.
    destruct (IH (h ++ [CPair x acc]) d (VPtr (length h)) (x :: ys) f) as (r & h' & E' & X & L).
    + eapply list_at_ext; eauto using extends_snoc.
    + now apply list_at_new.
    + simpl in Hf; lia.
    + exists r, h'. split; [auto|]. split; [eapply extends_trans; eauto using extends_snoc|].
      simpl. rewrite <- app_assoc. auto.
Qed.

Lemma p_reverse_ok xs h v fuel : list_at h v xs -> length xs <= fuel ->
  exists r h', p_reverse fuel v h = HOk r h' /\ extends h h' /\ list_at h' r (rev xs).
Proof.
  intros Hv Hf. unfold p_reverse, m_listp. erewrite bind_ok by (rewrite (listp_ok _ _ _ _ Hv Hf); reflexivity).
  destruct (reverse_ok xs h v VNull [] fuel Hv ltac:(constructor) Hf) as (r & h' & E & X & L).
  rewrite app_nil_r in L. eauto.
Qed.

(** ** append, copy *)

(** A fresh list laid out in consecutive cells starting at [n], ending in [last]. *)
Fixpoint chain (n : nat) (xs : list val) (last : val) : list cell :=
  match xs with
  | [] => []
  | [x] => [CPair x last]
  | x :: r => CPair x (VPtr (S n)) :: chain (S n) r last
  end.
Lemma chain_length n xs last : length (chain n xs last) = length xs.
Proof. revert n; induction xs as [|x [|y r] IH]; intros n; auto. cbn [chain length] in *. f_equal. apply IH. Qed.
Lemma chain_snoc n xs x last : xs <> [] ->
  chain n (xs ++ [x]) last =
  chain n xs (VPtr (n + length xs)) ++ [CPair x last].
Proof.
  revert n; induction xs as [|y r IH]; intros n H; [congruence|].
  destruct r as [|z r].
  - cbn. do 2 f_equal. f_equal. lia.
  - change ((y :: z :: r) ++ [x]) with (y :: (z :: r) ++ [x]).
    assert (E : forall l, chain n (y :: (z :: r) ++ l) last = CPair y (VPtr (S n)) :: chain (S n) ((z :: r) ++ l) last) by auto.
    rewrite E, IH by congruence. cbn [chain length app]. do 2 f_equal.
    replace (S n + S (length r)) with (n + S (S (length r))) by lia. auto.
Qed.
Lemma chain_last h xs x last y e :
  upd_cell (length h + length xs) (CPair x y) (h ++ chain (length h) (xs ++ [x]) last ++ e) =
  h ++ chain (length h) (xs ++ [x]) y ++ e.
Proof.
  destruct xs as [|z r].
  - simpl. rewrite Nat.add_0_r. apply upd_cell_app.
  - rewrite !chain_snoc by congruence. rewrite <- !app_assoc. rewrite !(app_assoc h).
    set (p := h ++ chain (length h) (z :: r) (VPtr (length h + length (z :: r)))).
    replace (length h + length (z :: r)) with (length p)
      by (unfold p; rewrite app_length, chain_length; auto).
    apply upd_cell_app.
Qed.
Lemma chain_list h0 xs last tl : xs <> [] ->
  forall pre, list_at (h0 ++ pre ++ chain (length h0 + length pre) xs last) last tl ->
  list_at (h0 ++ pre ++ chain (length h0 + length pre) xs last) (VPtr (length h0 + length pre)) (xs ++ tl).
Proof.
  induction xs as [|x r IH]; intros H pre Ht; [congruence|].
  destruct r as [|y r].
  - cbn [chain app] in *. econstructor; eauto.
    rewrite app_assoc, nth_error_app2; rewrite app_length; [|lia]. rewrite Nat.sub_diag. auto.
  - remember (y :: r) as r' eqn:Er. assert (r' <> []) by (subst; congruence).
    assert (E : chain (length h0 + length pre) (x :: r') last =
                CPair x (VPtr (S (length h0 + length pre))) :: chain (S (length h0 + length pre)) r' last)
      by (subst r'; reflexivity).
    rewrite E in *.
    assert (F : h0 ++ pre ++ CPair x (VPtr (S (length h0 + length pre))) :: chain (S (length h0 + length pre)) r' last =
                h0 ++ (pre ++ [CPair x (VPtr (S (length h0 + length pre)))]) ++
                chain (length h0 + length (pre ++ [CPair x (VPtr (S (length h0 + length pre)))])) r' last).
    { rewrite <- app_assoc. simpl. do 4 f_equal. rewrite app_length. simpl. lia. }
    rewrite <- app_comm_cons.
    econstructor.
    + rewrite app_assoc, nth_error_app2; rewrite app_length; [|lia]. rewrite Nat.sub_diag. reflexivity.
    + rewrite F in *. 
      replace (S (length h0 + length pre)) with (length h0 + length (pre ++ [CPair x (VPtr (S (length h0 + length pre)))])) at 3
        by (rewrite app_length; simpl; lia).
      apply IH; auto.
Qed.

Lemma copy_loop_ok xs : forall done x h0 fuel it,
  list_at h0 it xs -> length xs <= fuel ->
  copy_loop fuel it (VPtr (length h0 + length done)) (h0 ++ chain (length h0) (done ++ [x]) VVoid) =
  HOk (VPtr (length h0 + length (done ++ xs))) (h0 ++ chain (length h0) (done ++ x :: xs) VVoid).
Proof.
  induction xs as [|y xs IH]; intros done x h0 fuel it Hl Hf.
  - apply list_at_nil in Hl; subst. rewrite app_nil_r. destruct fuel; reflexivity.
  - destruct (list_at_cons_inv _ _ _ _ Hl) as (l & d & -> & E & Hd & P).
    destruct fuel as [|f]; [simpl in Hf; lia|]. cbn [copy_loop nullp].
    assert (P1 : forall e, pair_at (h0 ++ e) (VPtr l) = Some (y, d))
      by (intros e; eapply pair_at_kept; eauto using extends_kept, extends_app).
    st (P1 (chain (length h0) (done ++ [x]) VVoid)). stc.
    rewrite app_length, chain_length, app_length. cbn [length].
    rewrite <- app_assoc.
    assert (Hlast : nth_error (h0 ++ chain (length h0) (done ++ [x]) VVoid ++ [CPair y VVoid]) (length h0 + length done)
                    = Some (CPair x VVoid)).
    { rewrite nth_error_app2 by lia. replace (length h0 + length done - length h0) with (length done) by lia.
      rewrite nth_error_app1 by (rewrite chain_length, app_length; simpl; lia).
      destruct done as [|z r]; [reflexivity|].
      rewrite chain_snoc by congruence. rewrite nth_error_app2; rewrite chain_length; [|lia].
      now rewrite Nat.sub_diag. }
    erewrite bind_ok.
    2:{ unfold m_set_cdr. rewrite (pair_at_cons _ _ _ _ Hlast). rewrite chain_last. reflexivity. }
    st (P1 (chain (length h0) (done ++ [x]) (VPtr (length h0 + (length done + 1))) ++ [CPair y VVoid])).
    specialize (IH (done ++ [x]) y h0 f d Hd ltac:(simpl in Hf; lia)).
    rewrite app_length in IH. cbn [length] in IH.
    rewrite chain_snoc in IH by (destruct done; discriminate).
    rewrite app_length in IH. cbn [length] in IH. rewrite IH.
    rewrite <- !app_assoc. cbn [app]. f_equal. f_equal. rewrite !app_length. reflexivity.
Qed.

Lemma append2_ok xs h v ys fuel : list_at h v xs -> length xs <= S fuel ->
  exists r h', append2 fuel v ys h = HOk r h' /\ extends h h' /\
    (forall tl, list_at h ys tl -> list_at h' r (xs ++ tl)) /\
    (xs = [] /\ r = ys /\ h' = h \/ r = VPtr (length h) /\ h' = h ++ chain (length h) xs ys).
Proof.
  intros Hl Hf. unfold append2. destruct xs as [|x xs].
  - apply list_at_nil in Hl; subst. exists ys, h. repeat split; auto using extends_refl.
  - rewrite (nullp_cons _ _ _ _ Hl).
    destruct (list_at_cons_inv _ _ _ _ Hl) as (l & d & -> & E & Hd & P).
    st P. stc.
    assert (P' : pair_at (h ++ [CPair x VVoid]) (VPtr l) = Some (x, d))
      by (eapply pair_at_kept; eauto using kept_snoc).
    st P'.
    pose proof (copy_loop_ok xs [] x h fuel d Hd ltac:(simpl in Hf; lia)) as C.
    change (chain (length h) ([] ++ [x]) VVoid) with [CPair x VVoid] in C. cbn [app length] in C.
    rewrite Nat.add_0_r in C. erewrite bind_ok by (exact C).
    erewrite bind_ok.
    2:{ unfold m_set_cdr.
        assert (N : exists z, nth_error (h ++ chain (length h) (x :: xs) VVoid) (length h + length xs) = Some (CPair z VVoid)
                    /\ exists pre, x :: xs = pre ++ [z] /\ length pre = length xs).
        { destruct (exists_last (l := x :: xs) ltac:(congruence)) as (pre & z & Ez). exists z.
          assert (Lp : length pre = length xs).
          { apply (f_equal (@length val)) in Ez. rewrite app_length in Ez. simpl in Ez. lia. }
          split; [|eauto]. rewrite Ez, <- Lp. rewrite nth_error_app2 by lia.
          replace (length h + length pre - length h) with (length pre) by lia.
          destruct pre; [reflexivity|]. rewrite chain_snoc by congruence.
          rewrite nth_error_app2; rewrite chain_length; [|lia]. now rewrite Nat.sub_diag. }
        destruct N as (z & N & pre & Ez & Lp). rewrite (pair_at_cons _ _ _ _ N).
        rewrite Ez, <- Lp. rewrite <- (app_nil_r (chain (length h) (pre ++ [z]) VVoid)).
        rewrite chain_last, app_nil_r. rewrite <- Ez. reflexivity. }
    exists (VPtr (length h)), (h ++ chain (length h) (x :: xs) ys). split; [reflexivity|].
    split; [apply extends_app|]. split; [|auto]. intros tl Ht.
    pose proof (chain_list h (x :: xs) ys tl ltac:(congruence) []) as G.
    cbn [app length] in G. rewrite Nat.add_0_r in G. apply G.
    eapply list_at_ext; eauto using extends_app.
Qed.

Lemma copy_list_ok xs h v fuel : list_at h v xs -> length xs <= S fuel ->
  exists r h', copy_list fuel v h = HOk r h' /\ extends h h' /\ list_at h' r xs.
Proof.
  intros Hl Hf. destruct (append2_ok xs h v VNull fuel Hl Hf) as (r & h' & E & X & L & _).
  exists r, h'. split; [|split; auto].
  - rewrite <- E. unfold copy_list, append2. destruct v; reflexivity.
  - rewrite <- (app_nil_r xs). apply L. constructor.
Qed.

Lemma Forall2_imp {A B} (P Q : A -> B -> Prop) l1 l2 :
  (forall a b, P a b -> Q a b) -> Forall2 P l1 l2 -> Forall2 Q l1 l2.
Proof. induction 2; auto. Qed.

Lemma append_loop_ok fuel : forall xss yss h acc tl,
  Forall2 (list_at h) xss yss -> list_at h acc tl ->
  Forall (fun xs => length xs <= fuel) yss ->
  exists r h', append_loop fuel acc xss h = HOk r h' /\ extends h h' /\ list_at h' r (concat (rev yss) ++ tl).
Proof.
  induction xss as [|v xss IH]; intros yss h acc tl H2 Ha Hf; inversion H2; subst.
  - exists acc, h. repeat split; auto using extends_refl.
  - inversion Hf; subst. cbn [append_loop]. unfold m_listp.
    erewrite bind_ok by (erewrite listp_ok by eauto; reflexivity). cbv iota.
    destruct (append2_ok y h v acc fuel ltac:(assumption) ltac:(lia)) as (r & h1 & E & X & L & _).
    erewrite bind_ok by exact E.
    destruct (IH l' h1 r (y ++ tl)) as (r' & h2 & E' & X' & L'); auto.
    { eapply Forall2_imp; [|eassumption]. intros; eapply list_at_ext; eauto. }
    exists r', h2. split; [auto|]. split; [eapply extends_trans; eauto|].
    cbn [rev]. rewrite concat_app. cbn [concat]. rewrite app_nil_r, <- app_assoc. auto.
Qed.

Lemma Forall2_rev' {A B} (P : A -> B -> Prop) l1 l2 : Forall2 P l1 l2 -> Forall2 P (rev l1) (rev l2).
Proof. induction 1; simpl; auto. apply Forall2_app; auto. Qed.

Lemma p_append_ok fuel args yss h :
  Forall2 (list_at h) args yss -> Forall (fun xs => length xs <= fuel) yss ->
  exists r h', p_append fuel args h = HOk r h' /\ extends h h' /\ list_at h' r (concat yss).
Proof.
  intros H2 Hf.
  assert (G : exists r h', append_loop fuel VNull (rev args) h = HOk r h' /\ extends h h' /\ list_at h' r (concat yss)).
  { destruct (append_loop_ok fuel (rev args) (rev yss) h VNull []) as (r & h' & E & X & L).
    - now apply Forall2_rev'.
    - constructor.
    - apply Forall_rev; auto.
    - rewrite rev_involutive, app_nil_r in L. eauto. }
  unfold p_append.
  destruct H2 as [|v y ? ? Hv [|w z ? ? Hw [|]]]; auto.
  - inversion Hf; subst. unfold m_listp. erewrite bind_ok by (erewrite listp_ok by eauto; reflexivity).
    exists v, h. cbn [concat]. rewrite app_nil_r. repeat split; auto using extends_refl.
  - inversion Hf as [|? ? ? Hf']; subst. inversion Hf'; subst. unfold m_listp.
    erewrite bind_ok by (erewrite listp_ok by eauto; reflexivity). cbv iota.
    erewrite bind_ok by (erewrite listp_ok by eauto; reflexivity). cbv iota.
    destruct (append2_ok y h v w fuel ltac:(assumption) ltac:(lia)) as (r & h1 & E & X & L & _).
    exists r, h1. cbn [concat]. rewrite app_nil_r. auto.
Qed.

(** ** Procedure arguments *)

Lemma calls_kept f h argss rs e h' : keeps_pairs f -> calls f h argss rs e h' -> pairs_kept h h'.
Proof.
  intros K; induction 1.
  - apply kept_refl.
  - specialize (K args h1). rewrite H0 in K. eapply kept_trans; eauto using extends_kept.
  - specialize (K args h1). rewrite H0 in K. eapply kept_trans; [eapply extends_kept; eauto|].
    eapply kept_trans; eauto.
Qed.

(** The call either returns or raises. *)
Lemma keeps_cases f args h : keeps_pairs f ->
  (exists r h', f args h = HOk r h' /\ pairs_kept h h') \/ (exists e h', f args h = HErr e h' /\ pairs_kept h h').
Proof. intros K. specialize (K args h). destruct (f args h); try tauto; eauto. Qed.

Lemma bind_err {A B} (m : M A) (k : A -> M B) h e h' : m h = HErr e h' -> bind m k h = HErr e h'.
Proof. unfold bind. now intros ->. Qed.

(** What the one-list loops do, for any well-behaved procedure. *)
Definition singles (xs : list val) : list (list val) := map (fun x => [x]) xs.

Lemma for_each1_ok f xs : keeps_pairs f -> forall h v fuel, list_at h v xs -> length xs <= fuel ->
  exists rs e h', calls f h (singles xs) rs e h' /\
    for_each1 fuel f v h = match e with None => HOk VVoid h' | Some e => HErr e h' end.
Proof.
  intros K; induction xs as [|x xs IH]; intros h v fuel Hl Hf.
  - apply list_at_nil in Hl; subst. exists [], None, h. split; [constructor|]. destruct fuel; reflexivity.
  - destruct (list_at_cons_inv _ _ _ _ Hl) as (l & d & -> & E & Hd & P).
    destruct fuel as [|n]; [simpl in Hf; lia|]. cbn [for_each1 nullp]. st P.
    destruct (keeps_cases f [x] h K) as [(r & h1 & Ec & Kc)|(e & h1 & Ec & Kc)].
    + rewrite (bind_ok _ _ _ _ _ Ec). st (pair_at_kept _ _ _ _ _ Kc P).
      destruct (IH h1 d n (list_at_kept _ _ _ _ Kc Hd) ltac:(simpl in Hf; lia)) as (rs & e & h' & C & Eq).
      exists (r :: rs), e, h'. split; [|exact Eq]. econstructor; eauto using extends_refl.
    + exists [], (Some e), h1. split; [econstructor; eauto using extends_refl|].
      rewrite (bind_err _ _ _ _ _ Ec). auto.
Qed.

Lemma calls_app f h a1 r1 h1 : calls f h a1 r1 None h1 -> forall h1' a2 r2 e h2,
  extends h1 h1' -> calls f h1' a2 r2 e h2 -> a2 <> [] -> calls f h (a1 ++ a2) (r1 ++ r2) e h2.
Proof.
  intros H. remember None as no eqn:Eno. induction H; intros h1' a2 r2 e' h2' X C N; try discriminate.
  - simpl. inversion C; subst; try congruence.
    + econstructor; [eapply extends_trans; eauto|eauto].
    + econstructor; [eapply extends_trans; eauto|eauto|eauto].
  - subst. simpl. econstructor; eauto.
Qed.

(** [map]: the calls are made left to right, and the result is the list of the
    results.  The accumulator is consed between the calls. *)
Lemma map1_ok f xs : keeps_pairs f -> forall h v acc ys fuel,
  list_at h v xs -> list_at h acc ys -> 2 * length xs + length ys <= fuel ->
  exists rs e h', calls f h (singles xs) rs e h' /\
    match e with
    | Some e => map1_loop fuel f v acc h = HErr e h'
    | None => exists r h'', map1_loop fuel f v acc h = HOk r h'' /\ extends h' h'' /\
                            list_at h'' r (rev ys ++ rs)
    end.
Proof.
  intros K; induction xs as [|x xs IH]; intros h v acc ys fuel Hl Ha Hf.
  - apply list_at_nil in Hl; subst. exists [], None, h. split; [constructor|].
    destruct (p_reverse_ok ys h acc fuel Ha ltac:(simpl in Hf; lia)) as (r & h' & E & X & L).
    exists r, h'. split; [destruct fuel; exact E|]. rewrite app_nil_r. auto.
  - destruct (list_at_cons_inv _ _ _ _ Hl) as (l & d & -> & E & Hd & P).
    destruct fuel as [|n]; [simpl in Hf; lia|]. cbn [map1_loop nullp]. st P. st P.
    destruct (keeps_cases f [x] h K) as [(r & h1 & Ec & Kc)|(e & h1 & Ec & Kc)].
    + rewrite (bind_ok _ _ _ _ _ Ec). stc.
      destruct (IH (h1 ++ [CPair r acc]) d (VPtr (length h1)) (r :: ys) n) as (rs & e & h' & C & Eq).
      * eapply list_at_ext; [apply extends_snoc|]. eapply list_at_kept; eauto.
      * apply list_at_new. eapply list_at_kept; eauto.
      * simpl in *; lia.
      * destruct xs as [|x' xs'].
        -- (* last call: nothing follows but allocation *)
           inversion C; subst. exists [r], None, h1. split.
           { econstructor; eauto using extends_refl. constructor. }
           destruct Eq as (r2 & h2 & E2 & X2 & L2). exists r2, h2.
           split; [exact E2|]. split; [eapply extends_trans; eauto using extends_snoc|].
           cbn [rev] in L2. rewrite app_nil_r in L2. auto.
        -- exists (r :: rs), e, h'. split.
           { change (calls f h ([[x]] ++ singles (x' :: xs')) ([r] ++ rs) e h').
             eapply (calls_app f h [[x]] [r] h1); [econstructor; eauto using extends_refl; constructor | | exact C | discriminate].
             apply extends_snoc. }
           destruct e; auto. destruct Eq as (r2 & h2 & E2 & X2 & L2). exists r2, h2. split; auto. split; auto.
           cbn [rev] in L2. rewrite <- app_assoc in L2. auto.
    + exists [], (Some e), h1. split; [econstructor; eauto using extends_refl|].
      apply (bind_err _ _ _ _ _ Ec).
Qed.

(** [andmap]: calls are made up to and including the first that returns #f. *)
Lemma andmap1_ok f xs : keeps_pairs f -> forall h v fuel, list_at h v xs -> length xs <= fuel ->
  exists done rest rs e h', xs = done ++ rest /\ calls f h (singles done) rs e h' /\
    match e with
    | Some e => andmap1 fuel f v h = HErr e h'
    | None => exists b, andmap1 fuel f v h = HOk (of_bool b) h' /\
        if b then rest = [] /\ Forall (fun r => r <> VFalse) rs
        else exists rs', rs = rs' ++ [VFalse] /\ Forall (fun r => r <> VFalse) rs'
    end.
Proof.
  intros K; induction xs as [|x xs IH]; intros h v fuel Hl Hf.
  - apply list_at_nil in Hl; subst. exists [], [], [], None, h. repeat split; [constructor|].
    exists true. split; [destruct fuel; reflexivity|auto].
  - destruct (list_at_cons_inv _ _ _ _ Hl) as (l & d & -> & E & Hd & P).
    destruct fuel as [|n]; [simpl in Hf; lia|]. cbn [andmap1 nullp]. st P.
    destruct (keeps_cases f [x] h K) as [(r & h1 & Ec & Kc)|(e & h1 & Ec & Kc)].
    + rewrite (bind_ok _ _ _ _ _ Ec). destruct (truthy r) eqn:T.
      * st (pair_at_kept _ _ _ _ _ Kc P).
        destruct (IH h1 d n (list_at_kept _ _ _ _ Kc Hd) ltac:(simpl in Hf; lia))
          as (done & rest & rs & e & h' & -> & C & Eq).
        exists (x :: done), rest, (r :: rs), e, h'. split; [auto|].
        split; [econstructor; eauto using extends_refl|]. destruct e; auto.
        destruct Eq as (b & Eb & Hb). exists b. split; auto.
        assert (r <> VFalse) by (intros ->; discriminate).
        destruct b; [destruct Hb; split; auto|].
        destruct Hb as (rs' & -> & Fr). exists (r :: rs'). split; auto.
      * exists [x], xs, [r], None, h1. split; [auto|].
        split; [econstructor; eauto using extends_refl; constructor|].
        exists false. split; [reflexivity|]. exists []. destruct r; try discriminate; auto.
    + exists [x], xs, [], (Some e), h1. split; [auto|]. split; [econstructor; eauto using extends_refl|].
      apply (bind_err _ _ _ _ _ Ec).
Qed.

Lemma ormap1_ok f xs : keeps_pairs f -> forall h v fuel, list_at h v xs -> length xs <= fuel ->
  exists done rest rs e h', xs = done ++ rest /\ calls f h (singles done) rs e h' /\
    match e with
    | Some e => ormap1 fuel f v h = HErr e h'
    | None => exists b, ormap1 fuel f v h = HOk (of_bool b) h' /\
        if b then exists rs' r, rs = rs' ++ [r] /\ r <> VFalse /\ Forall (fun r => r = VFalse) rs'
        else rest = [] /\ Forall (fun r => r = VFalse) rs
    end.
Proof.
  intros K; induction xs as [|x xs IH]; intros h v fuel Hl Hf.
  - apply list_at_nil in Hl; subst. exists [], [], [], None, h. repeat split; [constructor|].
    exists false. split; [destruct fuel; reflexivity|auto].
  - destruct (list_at_cons_inv _ _ _ _ Hl) as (l & d & -> & E & Hd & P).
    destruct fuel as [|n]; [simpl in Hf; lia|]. cbn [ormap1 nullp]. st P.
    destruct (keeps_cases f [x] h K) as [(r & h1 & Ec & Kc)|(e & h1 & Ec & Kc)].
    + rewrite (bind_ok _ _ _ _ _ Ec). destruct (truthy r) eqn:T.
      * exists [x], xs, [r], None, h1. split; [auto|].
        split; [econstructor; eauto using extends_refl; constructor|].
        exists true. split; [reflexivity|]. exists [], r. repeat split; auto. intros ->; discriminate.
      * st (pair_at_kept _ _ _ _ _ Kc P).
        destruct (IH h1 d n (list_at_kept _ _ _ _ Kc Hd) ltac:(simpl in Hf; lia))
          as (done & rest & rs & e & h' & -> & C & Eq).
        exists (x :: done), rest, (r :: rs), e, h'. split; [auto|].
        split; [econstructor; eauto using extends_refl|]. destruct e; auto.
        destruct Eq as (b & Eb & Hb). exists b. split; auto.
        assert (r = VFalse) by (destruct r; try discriminate; auto).
        destruct b; [|destruct Hb; split; auto].
        destruct Hb as (rs' & q & -> & Nq & Fr). exists (r :: rs'), q. repeat split; auto.
    + exists [x], xs, [], (Some e), h1. split; [auto|]. split; [econstructor; eauto using extends_refl|].
      apply (bind_err _ _ _ _ _ Ec).
Qed.

(** ** Several lists *)

(** The argument lists of the successive calls: the rows of the lists. *)
Fixpoint rows (n : nat) (xss : list (list val)) : list (list val) :=
  match n with
  | O => []
  | S m => map (fun xs => hd VNull xs) xss :: rows m (map (@tl val) xss)
  end.

Lemma cars_ok h vs xss : Forall2 (list_at h) vs xss -> Forall (fun xs => xs <> []) xss ->
  cars vs h = HOk (map (fun xs => hd VNull xs) xss) h.
Proof.
  induction 1 as [|v xs vs xss Hv Hvs IH]; intros Hn; auto. inversion Hn; subst.
  destruct xs as [|x xs]; [congruence|].
  destruct (list_at_cons_inv _ _ _ _ Hv) as (l & d & -> & E & Hd & P).
  cbn [cars]. st P. rewrite (bind_ok _ _ _ _ _ (IH H2)). auto.
Qed.
Lemma cdrs_ok h vs xss : Forall2 (list_at h) vs xss -> Forall (fun xs => xs <> []) xss ->
  exists ds, cdrs vs h = HOk ds h /\ Forall2 (list_at h) ds (map (@tl val) xss).
Proof.
  induction 1 as [|v xs vs xss Hv Hvs IH]; intros Hn; [exists []; split; [auto|constructor]|]. inversion Hn; subst.
  destruct xs as [|x xs]; [congruence|].
  destruct (list_at_cons_inv _ _ _ _ Hv) as (l & d & -> & E & Hd & P).
  destruct (IH H2) as (ds & Ed & Fd). exists (d :: ds). cbn [cdrs]. split.
  - st P. rewrite (bind_ok _ _ _ _ _ Ed). auto.
  - constructor; auto.
Qed.
Lemma some_null h vs xss n : Forall2 (list_at h) vs xss -> Forall (fun xs => length xs = n) xss -> vs <> [] ->
  existsb nullp vs = Nat.eqb n 0.
Proof.
  intros H2 Hn Hv. destruct n.
  - destruct H2 as [|v xs vs xss Hx Hxs]; [congruence|]. inversion Hn; subst. destruct xs; [|discriminate].
    apply list_at_nil in Hx. subst; auto.
  - clear Hv. induction H2 as [|v xs vs xss Hx Hxs IH]; auto. inversion Hn; subst.
    destruct xs; [discriminate|]. simpl. rewrite (nullp_cons _ _ _ _ Hx). auto.
Qed.
Lemma tails_len n xss : Forall (fun xs : list val => length xs = S n) xss ->
  Forall (fun xs => xs <> []) xss /\ Forall (fun xs => length xs = n) (map (@tl val) xss).
Proof.
  induction 1 as [|xs xss H HF IH]; simpl; auto. destruct IH. destruct xs; [discriminate|]. 
  split; constructor; auto; congruence.
Qed.
Lemma cdrs_nonempty h vs ds : cdrs vs h = HOk ds h -> vs <> [] -> ds <> [].
Proof.
  destruct vs; [congruence|]. cbn [cdrs]. unfold bind. destruct (m_cdr v h); try discriminate.
  destruct (cdrs vs h0); try discriminate. unfold ret. intros [= <- ->]. congruence.
Qed.

Lemma Forall2_kept h h' vs xss : pairs_kept h h' -> Forall2 (list_at h) vs xss -> Forall2 (list_at h') vs xss.
Proof. intros K; apply Forall2_imp. intros; eapply list_at_kept; eauto. Qed.

Lemma map_loop_ok f n : keeps_pairs f -> forall h vs xss acc ys fuel,
  Forall2 (list_at h) vs xss -> Forall (fun xs => length xs = n) xss -> vs <> [] ->
  list_at h acc ys -> 2 * n + length ys <= fuel ->
  exists rs e h', calls f h (rows n xss) rs e h' /\
    match e with
    | Some e => map_loop fuel f vs acc h = HErr e h'
    | None => exists r h'', map_loop fuel f vs acc h = HOk r h'' /\ extends h' h'' /\
                            list_at h'' r (rev ys ++ rs)
    end.
Proof.
  intros K; induction n as [|n IH]; intros h vs xss acc ys fuel H2 Hn Hv Ha Hf.
  - exists [], None, h. split; [constructor|].
    destruct (p_reverse_ok ys h acc fuel Ha ltac:(simpl in Hf; lia)) as (r & h' & E & X & L).
    exists r, h'. split; [|rewrite app_nil_r; auto].
    destruct fuel; cbn [map_loop]; rewrite (some_null _ _ _ _ H2 Hn Hv); exact E.
  - destruct fuel as [|m]; [simpl in Hf; lia|]. cbn [map_loop]. rewrite (some_null _ _ _ _ H2 Hn Hv).
    cbn [Nat.eqb]. cbv iota. destruct (tails_len _ _ Hn) as [Ne Ht].
    destruct (cdrs_ok _ _ _ H2 Ne) as (ds & Ed & Fd). rewrite (bind_ok _ _ _ _ _ Ed).
    rewrite (bind_ok _ _ _ _ _ (cars_ok _ _ _ H2 Ne)).
    cbn [rows]. set (args := map (fun xs => hd VNull xs) xss).
    destruct (keeps_cases f args h K) as [(r & h1 & Ec & Kc)|(e & h1 & Ec & Kc)].
    + rewrite (bind_ok _ _ _ _ _ Ec). stc.
      destruct (IH (h1 ++ [CPair r acc]) ds (map (@tl val) xss) (VPtr (length h1)) (r :: ys) m) as (rs & e & h' & C & Eq).
      * eapply Forall2_kept; [|exact Fd]. eapply kept_trans; eauto using kept_snoc.
      * auto.
      * eapply cdrs_nonempty; eauto.
      * apply list_at_new. eapply list_at_kept; eauto.
      * simpl in *; lia.
      * destruct n as [|n'].
        -- inversion C; subst. exists [r], None, h1. split.
           { econstructor; eauto using extends_refl. constructor. }
           destruct Eq as (r2 & h2 & E2 & X2 & L2). exists r2, h2.
           split; [exact E2|]. split; [eapply extends_trans; eauto using extends_snoc|].
           cbn [rev] in L2. rewrite app_nil_r in L2. auto.
        -- exists (r :: rs), e, h'. split.
           { change (calls f h ([args] ++ rows (S n') (map (@tl val) xss)) ([r] ++ rs) e h').
             eapply (calls_app f h [args] [r] h1); [econstructor; eauto using extends_refl; constructor | | exact C | discriminate].
             apply extends_snoc. }
           destruct e; auto. destruct Eq as (r2 & h2 & E2 & X2 & L2). exists r2, h2. split; auto. split; auto.
           cbn [rev] in L2. rewrite <- app_assoc in L2. auto.
    + exists [], (Some e), h1. split; [econstructor; eauto using extends_refl|].
      apply (bind_err _ _ _ _ _ Ec).
Qed.

Lemma for_each_loop_ok f n : keeps_pairs f -> forall h vs xss fuel,
  Forall2 (list_at h) vs xss -> Forall (fun xs => length xs = n) xss -> vs <> [] -> n <= fuel ->
  exists rs e h', calls f h (rows n xss) rs e h' /\
    for_each_loop fuel f vs h = match e with None => HOk VVoid h' | Some e => HErr e h' end.
Proof.
  intros K; induction n as [|n IH]; intros h vs xss fuel H2 Hn Hv Hf.
  - exists [], None, h. split; [constructor|].
    destruct fuel; cbn [for_each_loop]; rewrite (some_null _ _ _ _ H2 Hn Hv); reflexivity.
  - destruct fuel as [|m]; [simpl in Hf; lia|]. cbn [for_each_loop]. rewrite (some_null _ _ _ _ H2 Hn Hv).
    cbn [Nat.eqb]. cbv iota. destruct (tails_len _ _ Hn) as [Ne Ht].
    rewrite (bind_ok _ _ _ _ _ (cars_ok _ _ _ H2 Ne)).
    cbn [rows]. set (args := map (fun xs => hd VNull xs) xss).
    destruct (keeps_cases f args h K) as [(r & h1 & Ec & Kc)|(e & h1 & Ec & Kc)].
    + rewrite (bind_ok _ _ _ _ _ Ec).
      destruct (cdrs_ok h1 _ _ (Forall2_kept _ _ _ _ Kc H2) Ne) as (ds & Ed & Fd). rewrite (bind_ok _ _ _ _ _ Ed).
      destruct (IH h1 ds (map (@tl val) xss) m Fd Ht) as (rs & e & h' & C & Eq).
      * eapply cdrs_nonempty; eauto.
      * lia.
      * exists (r :: rs), e, h'. split; [econstructor; eauto using extends_refl|exact Eq].
    + exists [], (Some e), h1. split; [econstructor; eauto using extends_refl|].
      rewrite (bind_err _ _ _ _ _ Ec). auto.
Qed.

Lemma rows_app_len n xss : length (rows n xss) = n.
Proof. revert xss; induction n; simpl; auto. Qed.

Lemma andmap_loop_ok f n : keeps_pairs f -> forall h vs xss fuel,
  Forall2 (list_at h) vs xss -> Forall (fun xs => length xs = n) xss -> vs <> [] -> n <= fuel ->
  exists done rest rs e h', rows n xss = done ++ rest /\ calls f h done rs e h' /\
    match e with
    | Some e => andmap_loop fuel f vs h = HErr e h'
    | None => exists b, andmap_loop fuel f vs h = HOk (of_bool b) h' /\
        if b then rest = [] /\ Forall (fun r => r <> VFalse) rs
        else exists rs', rs = rs' ++ [VFalse] /\ Forall (fun r => r <> VFalse) rs'
    end.
Proof.
  intros K; induction n as [|n IH]; intros h vs xss fuel H2 Hn Hv Hf.
  - exists [], [], [], None, h. repeat split; [constructor|]. exists true. split; [|auto].
    destruct fuel; cbn [andmap_loop]; rewrite (some_null _ _ _ _ H2 Hn Hv); reflexivity.
  - destruct fuel as [|m]; [simpl in Hf; lia|]. cbn [andmap_loop]. rewrite (some_null _ _ _ _ H2 Hn Hv).
    cbn [Nat.eqb]. cbv iota. destruct (tails_len _ _ Hn) as [Ne Ht].
    rewrite (bind_ok _ _ _ _ _ (cars_ok _ _ _ H2 Ne)).
    cbn [rows]. set (args := map (fun xs => hd VNull xs) xss).
    destruct (keeps_cases f args h K) as [(r & h1 & Ec & Kc)|(e & h1 & Ec & Kc)].
    + rewrite (bind_ok _ _ _ _ _ Ec). destruct (truthy r) eqn:T.
      * destruct (cdrs_ok h1 _ _ (Forall2_kept _ _ _ _ Kc H2) Ne) as (ds & Ed & Fd). rewrite (bind_ok _ _ _ _ _ Ed).
        destruct (IH h1 ds (map (@tl val) xss) m Fd Ht) as (done & rest & rs & e & h' & Er & C & Eq).
        -- eapply cdrs_nonempty; eauto.
        -- lia.
        -- exists (args :: done), rest, (r :: rs), e, h'. split; [rewrite Er; auto|].
           split; [econstructor; eauto using extends_refl|]. destruct e; auto.
           destruct Eq as (b & Eb & Hb). exists b. split; auto.
           assert (r <> VFalse) by (intros ->; discriminate).
           destruct b; [destruct Hb; split; auto|].
           destruct Hb as (rs' & -> & Fr). exists (r :: rs'). split; auto.
      * exists [args], (rows n (map (@tl val) xss)), [r], None, h1. split; [auto|].
        split; [econstructor; eauto using extends_refl; constructor|].
        exists false. split; [reflexivity|]. exists []. destruct r; try discriminate; auto.
    + exists [args], (rows n (map (@tl val) xss)), [], (Some e), h1. split; [auto|].
      split; [econstructor; eauto using extends_refl|]. apply (bind_err _ _ _ _ _ Ec).
Qed.

Lemma ormap_loop_ok f n : keeps_pairs f -> forall h vs xss fuel,
  Forall2 (list_at h) vs xss -> Forall (fun xs => length xs = n) xss -> vs <> [] -> n <= fuel ->
  exists done rest rs e h', rows n xss = done ++ rest /\ calls f h done rs e h' /\
    match e with
    | Some e => ormap_loop fuel f vs h = HErr e h'
    | None => exists b, ormap_loop fuel f vs h = HOk (of_bool b) h' /\
        if b then exists rs' r, rs = rs' ++ [r] /\ r <> VFalse /\ Forall (fun r => r = VFalse) rs'
        else rest = [] /\ Forall (fun r => r = VFalse) rs
    end.
Proof.
  intros K; induction n as [|n IH]; intros h vs xss fuel H2 Hn Hv Hf.
  - exists [], [], [], None, h. repeat split; [constructor|]. exists false. split; [|auto].
    destruct fuel; cbn [ormap_loop]; rewrite (some_null _ _ _ _ H2 Hn Hv); reflexivity.
  - destruct fuel as [|m]; [simpl in Hf; lia|]. cbn [ormap_loop]. rewrite (some_null _ _ _ _ H2 Hn Hv).
    cbn [Nat.eqb]. cbv iota. destruct (tails_len _ _ Hn) as [Ne Ht].
    rewrite (bind_ok _ _ _ _ _ (cars_ok _ _ _ H2 Ne)).
    cbn [rows]. set (args := map (fun xs => hd VNull xs) xss).
    destruct (keeps_cases f args h K) as [(r & h1 & Ec & Kc)|(e & h1 & Ec & Kc)].
    + rewrite (bind_ok _ _ _ _ _ Ec). destruct (truthy r) eqn:T.
      * exists [args], (rows n (map (@tl val) xss)), [r], None, h1. split; [auto|].
        split; [econstructor; eauto using extends_refl; constructor|].
        exists true. split; [reflexivity|]. exists [], r. repeat split; auto. intros ->; discriminate.
      * destruct (cdrs_ok h1 _ _ (Forall2_kept _ _ _ _ Kc H2) Ne) as (ds & Ed & Fd). rewrite (bind_ok _ _ _ _ _ Ed).
        destruct (IH h1 ds (map (@tl val) xss) m Fd Ht) as (done & rest & rs & e & h' & Er & C & Eq).
        -- eapply cdrs_nonempty; eauto.
        -- lia.
        -- exists (args :: done), rest, (r :: rs), e, h'. split; [rewrite Er; auto|].
           split; [econstructor; eauto using extends_refl|]. destruct e; auto.
           destruct Eq as (b & Eb & Hb). exists b. split; auto.
           assert (r = VFalse) by (destruct r; try discriminate; auto).
           destruct b; [|destruct Hb; split; auto].
           destruct Hb as (rs' & q & -> & Nq & Fr). exists (r :: rs'), q. repeat split; auto.
    + exists [args], (rows n (map (@tl val) xss)), [], (Some e), h1. split; [auto|].
      split; [econstructor; eauto using extends_refl|]. apply (bind_err _ _ _ _ _ Ec).
Qed.

Lemma check_args_ok who fuel : forall vs xss h n prev,
  Forall2 (list_at h) vs xss -> Forall (fun xs => length xs = n) xss -> n <= fuel ->
  (prev = None \/ prev = Some (Z.of_nat n)) ->
  check_args fuel who prev vs h = HOk tt h.
Proof.
  induction vs as [|v vs IH]; intros xss h n prev H2 Hn Hf Hp; inversion H2; subst; auto.
  inversion Hn; subst. cbn [check_args]. unfold m_listp.
  erewrite bind_ok by (erewrite listp_ok by eauto; reflexivity). cbv iota.
  erewrite bind_ok by (eapply list_length_ok; eauto). rewrite Z.add_0_l.
  destruct Hp as [-> | ->]; [|rewrite Z.eqb_refl]; eapply IH; eauto.
Qed.

(** ** iota, enumerate, cons* *)

Definition fixes (zs : list Z) : list val := map VFix zs.
Definition upto (n : nat) : list Z := map Z.of_nat (seq 0 n).

Lemma upto_S n : upto (S n) = upto n ++ [Z.of_nat n].
Proof. unfold upto. rewrite seq_S, map_app. auto. Qed.

Lemma iota_loop_ok : forall n h v tl fuel m, m <= n ->
  list_at h v tl -> m <= fuel ->
  exists r h', iota_loop fuel (Z.of_nat m - 1) v h = HOk r h' /\ extends h h' /\ list_at h' r (fixes (upto m) ++ tl).
Proof.
  induction n as [n IH] using (well_founded_induction lt_wf). intros h v tl fuel m Hm Hl Hf.
  destruct m as [|[|m]].
  - exists v, h. destruct fuel; repeat split; auto using extends_refl.
  - exists (VPtr (length h)), (h ++ [CPair (VFix 0) v]).
    destruct fuel; repeat split; auto using extends_snoc; apply list_at_new; auto.
  - destruct fuel as [|f]; [lia|]. cbn [iota_loop].
    replace (Z.of_nat (S (S m)) - 1 >? 0)%Z with true by (symmetry; apply Z.gtb_lt; lia).
    rewrite (bind_ok _ _ _ _ _ (m_cons_ok _ _ _)). rewrite (bind_ok _ _ _ _ _ (m_cons_ok _ _ _)).
    set (a := VFix (Z.of_nat (S (S m)) - 1)). set (b := VFix (Z.of_nat (S (S m)) - 1 - 1)).
    destruct (IH m ltac:(lia) ((h ++ [CPair a v]) ++ [CPair b (VPtr (length h))]) (VPtr (length (h ++ [CPair a v])))
                (b :: a :: tl) f m ltac:(lia)) as (r & h' & E & X & L).
    + apply list_at_new. apply list_at_new. auto.
    + lia.
    + exists r, h'. split; [|split].
      * replace (Z.of_nat (S (S m)) - 1 - 2)%Z with (Z.of_nat m - 1)%Z by lia. exact E.
      * eapply extends_trans; [|exact X]. eapply extends_trans; apply extends_snoc.
      * rewrite !upto_S. unfold fixes. rewrite !map_app, <- !app_assoc. cbn [map app].
        replace (VFix (Z.of_nat m)) with b by (unfold b; f_equal; lia).
        replace (VFix (Z.of_nat (S m))) with a by (unfold a; f_equal; lia). exact L.
Qed.

Definition is_entry (h : heap) (c : val) (p : val * Z) : Prop := pair_at h c = Some (fst p, VFix (snd p)).

Lemma entry_kept h h' cs ps : pairs_kept h h' -> Forall2 (is_entry h) cs ps -> Forall2 (is_entry h') cs ps.
Proof. intros K. apply Forall2_imp. unfold is_entry. intros; eapply pair_at_kept; eauto. Qed.

Fixpoint numbered (i : Z) (xs : list val) : list (val * Z) :=
  match xs with [] => [] | x :: r => (x, i) :: numbered (i + 1) r end.

Lemma enumerate_loop_ok xs : forall h v acc cs ps i fuel,
  list_at h v xs -> list_at h acc cs -> Forall2 (is_entry h) cs ps -> 2 * length xs + length cs <= fuel ->
  exists r h' cs', enumerate_loop fuel v i acc h = HOk r h' /\ extends h h' /\
    list_at h' r cs' /\ Forall2 (is_entry h') cs' (rev ps ++ numbered i xs).
Proof.
  induction xs as [|x xs IH]; intros h v acc cs ps i fuel Hl Ha Hp Hf.
  - apply list_at_nil in Hl; subst.
    destruct (reverse_ok cs h acc VNull [] fuel Ha ltac:(constructor) ltac:(simpl in Hf; lia)) as (r & h' & E & X & L).
    exists r, h', (rev cs). split; [destruct fuel; exact E|]. split; auto. rewrite app_nil_r in L. split; auto.
    cbn [numbered]. rewrite app_nil_r. apply Forall2_rev'. eapply entry_kept; eauto using extends_kept.
  - destruct (list_at_cons_inv _ _ _ _ Hl) as (l & d & -> & E & Hd & P).
    destruct fuel as [|f]; [simpl in Hf; lia|]. cbn [enumerate_loop nullp].
    st P. st P. rewrite (bind_ok _ _ _ _ _ (m_cons_ok _ _ _)). rewrite (bind_ok _ _ _ _ _ (m_cons_ok _ _ _)).
    set (h1 := h ++ [CPair x (VFix i)]). set (h2 := h1 ++ [CPair (VPtr (length h)) acc]).
    assert (X1 : extends h h1) by apply extends_snoc. assert (X2 : extends h1 h2) by apply extends_snoc.
    destruct (IH h2 d (VPtr (length h1)) (VPtr (length h) :: cs) ((x, i) :: ps) (i + 1)%Z f) as (r & h' & cs' & E' & X' & L' & F').
    + exact (list_at_ext _ _ _ _ (extends_trans _ _ _ X1 X2) Hd).
    + apply list_at_new. exact (list_at_ext _ _ _ _ X1 Ha).
    + constructor.
      * unfold is_entry. eapply pair_at_kept; [apply extends_kept; exact X2|].
        apply pair_at_cons. unfold h1. apply nth_snoc_new.
      * exact (entry_kept _ _ _ _ (extends_kept _ _ (extends_trans _ _ _ X1 X2)) Hp).
    + simpl in *; lia.
    + exists r, h', cs'. split; [exact E'|]. split; [exact (extends_trans _ _ _ (extends_trans _ _ _ X1 X2) X')|].
      split; auto. cbn [rev numbered] in *. rewrite <- app_assoc in F'. auto.
Qed.

Lemma cons_star_ok : forall xs x h tl, 
  (forall y, last (x :: xs) y = last (x :: xs) y) ->
  list_at h (last xs x) tl ->
  exists r h', l_cons_star x xs h = HOk r h' /\ extends h h' /\ list_at h' r (removelast (x :: xs) ++ tl).
Proof.
  induction xs as [|y xs IH]; intros x h tl _ Hl.
  - exists x, h. repeat split; auto using extends_refl.
  - cbn [l_cons_star].
    assert (E0 : last (y :: xs) x = last xs y) by (clear; revert y; induction xs; intros; auto; cbn in *; destruct xs; auto).
    rewrite E0 in Hl.
    destruct (IH y h tl ltac:(auto) Hl) as (r & h' & E & X & L). rewrite (bind_ok _ _ _ _ _ E).
    exists (VPtr (length h')), (h' ++ [CPair x r]). split; [reflexivity|].
    split; [eapply extends_trans; eauto using extends_snoc|].
    change (removelast (x :: y :: xs)) with (x :: removelast (y :: xs)). apply list_at_new. auto.
Qed.

(** ** list-ref, list-set *)

Lemma list_ref_ok lst k n xs : forall h v i fuel, list_at h v xs -> length xs <= fuel -> (0 <= i <= n)%Z ->
  list_ref_loop fuel lst k n v i h =
  match nth_error xs (Z.to_nat (n - i)) with
  | Some x => HOk x h
  | None => HErr (EOther "list-ref" [k; lst]) h
  end.
Proof.
  induction xs as [|x xs IH]; intros h v i fuel Hl Hf Hi.
  - apply list_at_nil in Hl; subst. destruct (Z.to_nat (n - i)); destruct fuel; reflexivity.
  - destruct (list_at_cons_inv _ _ _ _ Hl) as (l & d & -> & E & Hd & P).
    destruct fuel as [|f]; [simpl in Hf; lia|]. cbn [list_ref_loop nullp].
    destruct (Z.eqb_spec i n).
    + subst. rewrite Z.sub_diag. unfold pairp. rewrite P. rewrite (m_car_ok _ _ _ _ P). auto.
    + unfold pairp. rewrite P. st P. rewrite IH by (auto; simpl in Hf; lia).
      replace (Z.to_nat (n - i)) with (S (Z.to_nat (n - (i + 1)))) by lia. auto.
Qed.

Lemma list_set_ok lst k n v0 xs : forall h v i acc ys fuel,
  list_at h v xs -> list_at h acc ys -> 2 * length xs + length ys + 1 <= fuel -> (0 <= i <= n)%Z ->
  if (n - i <? Z.of_nat (length xs))%Z then
    exists r h', list_set_loop fuel lst k n v0 v i acc h = HOk r h' /\ extends h h' /\
      list_at h' r (rev ys ++ firstn (Z.to_nat (n - i)) xs ++ v0 :: skipn (S (Z.to_nat (n - i))) xs)
  else exists h', list_set_loop fuel lst k n v0 v i acc h = HErr (EOther "list-set" [k; lst]) h' /\ extends h h'.
Proof.
  induction xs as [|x xs IH]; intros h v i acc ys fuel Hl Ha Hf Hi.
  - apply list_at_nil in Hl; subst. replace (n - i <? Z.of_nat (length (@nil val)))%Z with false
      by (symmetry; apply Z.ltb_ge; simpl; lia).
    exists h. split; [destruct fuel; reflexivity|apply extends_refl].
  - destruct (list_at_cons_inv _ _ _ _ Hl) as (l & d & -> & E & Hd & P).
    destruct fuel as [|f]; [simpl in Hf; lia|]. cbn [list_set_loop nullp].
    destruct (Z.eqb_spec i n).
    + subst. rewrite Z.sub_diag. replace (0 <? Z.of_nat (length (x :: xs)))%Z with true
        by (symmetry; apply Z.ltb_lt; simpl; lia).
      rewrite (if_pair_ok _ _ _ _ _ _ P).
      destruct (p_reverse_ok ys h acc (S f) Ha ltac:(simpl in Hf; lia)) as (r & h1 & Er & X1 & L1).
      rewrite (bind_ok _ _ _ _ _ Er). st (pair_at_kept _ _ _ _ _ (extends_kept _ _ X1) P).
      stc.
      destruct (p_append_ok (S f) [r; VPtr (length h1)] [rev ys; v0 :: xs] (h1 ++ [CPair v0 d])) as (r2 & h2 & E2 & X2 & L2).
      * constructor; [|constructor; [|constructor]].
        -- eapply list_at_ext; eauto using extends_snoc.
        -- apply list_at_new. eapply list_at_ext; eauto.
      * simpl in Hf. constructor; [rewrite rev_length; lia|constructor; [simpl; lia|constructor]].
      * exists r2, h2. split; [exact E2|]. split.
        -- eapply extends_trans; [exact X1|]. eapply extends_trans; eauto using extends_snoc.
        -- cbn [concat] in L2. rewrite app_nil_r in L2. exact L2.
    + rewrite (if_pair_ok _ _ _ _ _ _ P). st P. st P. stc.
      specialize (IH (h ++ [CPair x acc]) d (i + 1)%Z (VPtr (length h)) (x :: ys) f
                    ltac:(eapply list_at_ext; eauto using extends_snoc) ltac:(apply list_at_new; auto)
                    ltac:(simpl in *; lia) ltac:(lia)).
      replace (n - (i + 1) <? Z.of_nat (length xs))%Z with (n - i <? Z.of_nat (length (x :: xs)))%Z in IH.
      2:{ cbn [length]. destruct (Z.ltb_spec (n - i) (Z.of_nat (S (length xs))));
          destruct (Z.ltb_spec (n - (i + 1)) (Z.of_nat (length xs))); auto; lia. }
      destruct (n - i <? Z.of_nat (length (x :: xs)))%Z.
      * destruct IH as (r & h' & E' & X' & L'). exists r, h'. split; [exact E'|].
        split; [eapply extends_trans; eauto using extends_snoc|].
        replace (Z.to_nat (n - i)) with (S (Z.to_nat (n - (i + 1)))) by lia.
        cbn [firstn rev] in *. rewrite <- app_assoc in L'. exact L'.
      * destruct IH as (h' & E' & X'). exists h'. split; [exact E'|].
        eapply extends_trans; eauto using extends_snoc.
Qed.

(** ** filter, foldl, foldr *)

(** Elements whose result is not #f. *)
Fixpoint kept_by (xs rs : list val) : list val :=
  match xs, rs with
  | x :: xs, r :: rs => if truthy r then x :: kept_by xs rs else kept_by xs rs
  | _, _ => []
  end.

Lemma filter_loop_ok f lst xs : keeps_pairs f -> forall h v acc ys fuel,
  list_at h v xs -> list_at h acc ys -> 2 * length xs + length ys <= fuel ->
  exists rs e h', calls f h (singles xs) rs e h' /\
    match e with
    | Some e => l_filter_loop fuel f lst v acc h = HErr e h'
    | None => exists r h'', l_filter_loop fuel f lst v acc h = HOk r h'' /\ extends h' h'' /\
                            list_at h'' r (rev ys ++ kept_by xs rs)
    end.
Proof.
  intros K; induction xs as [|x xs IH]; intros h v acc ys fuel Hl Ha Hf.
  - apply list_at_nil in Hl; subst. exists [], None, h. split; [constructor|].
    destruct (p_reverse_ok ys h acc fuel Ha ltac:(simpl in Hf; lia)) as (r & h' & E & X & L).
    exists r, h'. split; [destruct fuel; exact E|]. cbn [kept_by]. rewrite app_nil_r. auto.
  - destruct (list_at_cons_inv _ _ _ _ Hl) as (l & d & -> & E & Hd & P).
    destruct fuel as [|n]; [simpl in Hf; lia|]. cbn [l_filter_loop nullp].
    rewrite (if_pair_ok _ _ _ _ _ _ P). st P.
    destruct (keeps_cases f [x] h K) as [(r & h1 & Ec & Kc)|(e & h1 & Ec & Kc)].
    + rewrite (bind_ok _ _ _ _ _ Ec). destruct (truthy r) eqn:T.
      * st (pair_at_kept _ _ _ _ _ Kc P). stc.
        destruct (IH (h1 ++ [CPair x acc]) d (VPtr (length h1)) (x :: ys) n) as (rs & e & h' & C & Eq).
        -- eapply list_at_ext; [apply extends_snoc|]. eapply list_at_kept; eauto.
        -- apply list_at_new. eapply list_at_kept; eauto.
        -- simpl in *; lia.
        -- destruct xs as [|x' xs'].
           ++ inversion C; subst. exists [r], None, h1. split.
              { econstructor; eauto using extends_refl. constructor. }
              destruct Eq as (r2 & h2 & E2 & X2 & L2). exists r2, h2.
              split; [exact E2|]. split; [eapply extends_trans; eauto using extends_snoc|].
              cbn [rev kept_by] in *. rewrite T. rewrite app_nil_r in L2. exact L2.
           ++ exists (r :: rs), e, h'. split.
              { change (calls f h ([[x]] ++ singles (x' :: xs')) ([r] ++ rs) e h').
                eapply (calls_app f h [[x]] [r] h1); [econstructor; eauto using extends_refl; constructor | | exact C | discriminate].
                apply extends_snoc. }
              destruct e; auto. destruct Eq as (r2 & h2 & E2 & X2 & L2). exists r2, h2. split; auto. split; auto.
              remember (x' :: xs') as xs. cbn [rev kept_by] in *. rewrite T. rewrite <- app_assoc in L2. exact L2.
      * st (pair_at_kept _ _ _ _ _ Kc P).
        destruct (IH h1 d acc ys n) as (rs & e & h' & C & Eq).
        -- eapply list_at_kept; eauto.
        -- eapply list_at_kept; eauto.
        -- simpl in *; lia.
        -- exists (r :: rs), e, h'. split; [econstructor; eauto using extends_refl|].
           destruct e; auto. cbn [kept_by]. rewrite T. auto.
    + exists [], (Some e), h1. split; [econstructor; eauto using extends_refl|].
      apply (bind_err _ _ _ _ _ Ec).
Qed.

(** [folds f h acc xs out]: accumulating over [xs] from [acc] by calls
    [(f acc x)], with nothing else happening in between. *)
Inductive folds (f : proc) : heap -> val -> list val -> hres val -> Prop :=
| FoldDone h acc : folds f h acc [] (HOk acc h)
| FoldErr h h' acc x xs e : f [acc; x] h = HErr e h' -> folds f h acc (x :: xs) (HErr e h')
| FoldStep h h1 acc x xs r out :
    f [acc; x] h = HOk r h1 -> folds f h1 r xs out -> folds f h acc (x :: xs) out.

Lemma foldl_ok f lst xs : keeps_pairs f -> forall h v acc fuel, list_at h v xs -> length xs <= fuel ->
  folds f h acc xs (l_foldl fuel f lst v acc h).
Proof.
  intros K; induction xs as [|x xs IH]; intros h v acc fuel Hl Hf.
  - apply list_at_nil in Hl; subst. destruct fuel; constructor.
  - destruct (list_at_cons_inv _ _ _ _ Hl) as (l & d & -> & E & Hd & P).
    destruct fuel as [|n]; [simpl in Hf; lia|]. cbn [l_foldl nullp].
    rewrite (if_pair_ok _ _ _ _ _ _ P). st P. st P.
    destruct (keeps_cases f [acc; x] h K) as [(r & h1 & Ec & Kc)|(e & h1 & Ec & Kc)].
    + rewrite (bind_ok _ _ _ _ _ Ec). econstructor; eauto. apply IH; [|simpl in Hf; lia].
      eapply list_at_kept; eauto.
    + rewrite (bind_err _ _ _ _ _ Ec). now constructor.
Qed.

Lemma folds_snoc f h acc xs out : folds f h acc xs out -> forall x,
  (forall e h', out = HErr e h' -> folds f h acc (xs ++ [x]) out) /\
  (forall r h', out = HOk r h' -> forall out2, folds f h' r [x] out2 -> folds f h acc (xs ++ [x]) out2).
Proof.
  induction 1; intros y; split; intros; subst; try discriminate; simpl.
  - injection H as -> ->. auto.
  - constructor; congruence.
  - econstructor; [eassumption|]. destruct (IHfolds y) as [A _]. eapply A; reflexivity.
  - econstructor; [eassumption|]. destruct (IHfolds y) as [_ A]. eapply A; [reflexivity|eassumption].
Qed.

Lemma foldr_ok f lst xs : keeps_pairs f -> forall h v acc fuel, list_at h v xs -> length xs <= fuel ->
  folds f h acc (rev xs) (l_foldr fuel f lst v acc h) /\
  (forall r h', l_foldr fuel f lst v acc h = HOk r h' -> pairs_kept h h').
Proof.
  intros K; induction xs as [|x xs IH]; intros h v acc fuel Hl Hf.
  - apply list_at_nil in Hl; subst. destruct fuel; (split; [constructor|]); intros r h'; cbn; intros [= <- <-]; apply kept_refl.
  - destruct (list_at_cons_inv _ _ _ _ Hl) as (l & d & -> & E & Hd & P).
    destruct fuel as [|n]; [simpl in Hf; lia|]. cbn [l_foldr nullp].
    rewrite (if_pair_ok _ _ _ _ _ _ P). st P.
    destruct (IH h d acc n Hd ltac:(simpl in Hf; lia)) as [F Kr].
    destruct (l_foldr n f lst d acc h) as [r h1|e h1| |] eqn:Er.
    + rewrite (bind_ok _ _ _ _ _ Er). pose proof (Kr _ _ eq_refl) as Kc.
      st (pair_at_kept _ _ _ _ _ Kc P). simpl.
      destruct (keeps_cases f [r; x] h1 K) as [(r2 & h2 & Ec & Kc2)|(e & h2 & Ec & Kc2)]; rewrite Ec; split.
      * destruct (folds_snoc _ _ _ _ _ F x) as [_ A]. eapply A; [reflexivity|]. econstructor; [eassumption|constructor].
      * intros ? ? [= <- <-]. eapply kept_trans; eauto.
      * destruct (folds_snoc _ _ _ _ _ F x) as [_ A]. eapply A; [reflexivity|]. now constructor.
      * discriminate.
    + rewrite (bind_err _ _ _ _ _ Er). split; [|discriminate]. simpl.
      destruct (folds_snoc _ _ _ _ _ F x) as [A _]. eapply A; reflexivity.
    + exfalso. clear - F. remember HUndef as o. induction F; try discriminate; auto.
    + exfalso. clear - F. remember HFuel as o. induction F; try discriminate; auto.
Qed.

(** ** member, remove, assoc, index-of: [equal?] on data *)

Section Eq.
Variable ext : nat -> nat -> option bool.
Variable efuel : nat.

(** Same datum or not. *)
Lemma obj_eq_cases ext' h v x w y : reads h v x -> reads h w y -> osize x < efuel ->
  (x = y /\ equal_p ext' efuel h v w = Some true) \/ (x <> y /\ equal_p ext' efuel h v w = Some false).
Proof.
  intros Hv Hw Hs. destruct (equal_p_ok ext' h _ x v (le_n _) Hv w y efuel Hw Hs) as (b & E & Hb).
  destruct b; [left|right]; split; auto; [apply Hb; auto|].
  intros ->. destruct Hb as [_ Hb]. discriminate Hb; auto.
Qed.

Definition small (xs : list obj) : Prop := Forall (fun x => osize x < efuel) xs.

Lemma member_ok k ko xs : forall h v os fuel,
  list_at h v xs -> Forall2 (reads h) xs os -> reads h k ko -> small os -> length xs <= fuel ->
  exists r, l_member ext efuel fuel k v h = HOk r h /\
    ((exists xs1 xs2 os1 os2, xs = xs1 ++ r :: xs2 /\ os = os1 ++ ko :: os2 /\
        length xs1 = length os1 /\ ~ In ko os1) \/
     (r = VFalse /\ ~ In ko os)).
Proof.
  induction xs as [|x xs IH]; intros h v os fuel Hl Hr Hk Hs Hf; inversion Hr; subst.
  - apply list_at_nil in Hl; subst. exists VFalse. split; [destruct fuel; reflexivity|]. right; auto.
  - destruct (list_at_cons_inv _ _ _ _ Hl) as (l & d & -> & E & Hd & P). inversion Hs; subst.
    destruct fuel as [|n]; [simpl in Hf; lia|]. cbn [l_member nullp].
    rewrite (if_pair_ok _ _ _ _ _ _ P). st P. unfold m_equal.
    destruct (obj_eq_cases ext h x y k ko ltac:(auto) Hk ltac:(auto)) as [[-> Eq]|[Ne Eq]].
    + erewrite bind_ok by (rewrite Eq; reflexivity). exists x. split; [reflexivity|]. left.
      exists [], xs, [], l'. auto.
    + erewrite bind_ok by (rewrite Eq; reflexivity). cbv iota. st P.
      destruct (IH h d l' n ltac:(auto) ltac:(auto) Hk ltac:(auto) ltac:(simpl in Hf; lia)) as (r & Er & Hc).
      exists r. split; [exact Er|]. destruct Hc as [(xs1 & xs2 & os1 & os2 & -> & -> & Hlen & Hni)|[-> Hni]].
      * left. exists (x :: xs1), xs2, (y :: os1), os2. repeat split; simpl; auto. intros [|]; auto.
      * right. split; auto. intros [|]; auto.
Qed.

(** What is left when every element equal to [ko] is removed. *)
Inductive removed (ko : obj) : list val -> list obj -> list val -> list obj -> Prop :=
| RmNil : removed ko [] [] [] []
| RmDrop x xs os ys ps : removed ko xs os ys ps -> removed ko (x :: xs) (ko :: os) ys ps
| RmKeep x xs o os ys ps : o <> ko -> removed ko xs os ys ps -> removed ko (x :: xs) (o :: os) (x :: ys) (o :: ps).

Lemma removed_reads ko xs os ys ps h : removed ko xs os ys ps -> Forall2 (reads h) xs os -> Forall2 (reads h) ys ps.
Proof. induction 1; intros H2; inversion H2; subst; auto. Qed.
Lemma removed_len ko xs os ys ps : removed ko xs os ys ps -> length ys <= length xs.
Proof. induction 1; simpl; lia. Qed.
Lemma removed_small ko xs os ys ps : removed ko xs os ys ps -> small os -> small ps.
Proof. unfold small. induction 1; intros H2; auto; inversion H2; subst; auto. Qed.

Lemma remove_ok who k ko xs : forall h v os fuel,
  list_at h v xs -> Forall2 (reads h) xs os -> reads h k ko -> small os -> length xs <= fuel ->
  exists r h' ys ps, l_remove ext efuel fuel who k v h = HOk r h' /\ extends h h' /\
    list_at h' r ys /\ removed ko xs os ys ps.
Proof.
  induction xs as [|x xs IH]; intros h v os fuel Hl Hr Hk Hs Hf; inversion Hr; subst.
  - apply list_at_nil in Hl; subst. exists VNull, h, [], []. split; [destruct fuel; reflexivity|].
    split; [apply extends_refl|]. split; constructor.
  - destruct (list_at_cons_inv _ _ _ _ Hl) as (l & d & -> & E & Hd & P). inversion Hs; subst.
    destruct fuel as [|n]; [simpl in Hf; lia|]. cbn [l_remove nullp].
    rewrite (if_pair_ok _ _ _ _ _ _ P). st P. unfold m_equal.
    destruct (IH h d l' n ltac:(auto) ltac:(auto) Hk ltac:(auto) ltac:(simpl in Hf; lia))
      as (r & h' & ys & ps & Er & X & L & Rm).
    destruct (obj_eq_cases ext h x y k ko ltac:(auto) Hk ltac:(auto)) as [[-> Eq]|[Ne Eq]].
    + erewrite bind_ok by (rewrite Eq; reflexivity). cbv iota. st P.
      exists r, h', ys, ps. repeat split; auto. now constructor.
    + erewrite bind_ok by (rewrite Eq; reflexivity). cbv iota. st P.
      rewrite (bind_ok _ _ _ _ _ Er).
      exists (VPtr (length h')), (h' ++ [CPair x r]), (x :: ys), (y :: ps). split; [reflexivity|].
      split; [eapply extends_trans; eauto using extends_snoc|]. split; [now apply list_at_new|].
      now constructor.
Qed.

(** Removing each key of a list in turn. *)
Inductive removed_all : list obj -> list val -> list obj -> list val -> list obj -> Prop :=
| RaDone xs os : removed_all [] xs os xs os
| RaStep ko ks xs os ys ps zs qs :
    removed ko xs os ys ps -> removed_all ks ys ps zs qs -> removed_all (ko :: ks) xs os zs qs.

Lemma removed_nil_all ks : removed_all ks [] [] [] [].
Proof. induction ks; econstructor; eauto; constructor. Qed.

Lemma remove_star_ok ks : forall h kv kos v xs os fuel,
  list_at h kv ks -> Forall2 (reads h) ks kos ->
  list_at h v xs -> Forall2 (reads h) xs os -> small os -> length ks + length xs < fuel ->
  exists r h' ys ps, l_remove_star_loop ext efuel fuel kv v h = HOk r h' /\ extends h h' /\
    list_at h' r ys /\ removed_all kos xs os ys ps.
Proof.
  induction ks as [|k ks IH]; intros h kv kos v xs os fuel Hk Hkr Hl Hr Hs Hf; inversion Hkr; subst.
  - apply list_at_nil in Hk; subst. exists v, h, xs, os. split; [destruct fuel; reflexivity|].
    split; [apply extends_refl|]. split; auto; constructor.
  - destruct (list_at_cons_inv _ _ _ _ Hk) as (l & d & -> & E & Hd & P).
    destruct fuel as [|n]; [lia|]. cbn [l_remove_star_loop nullp].
    destruct (nullp v) eqn:Nv.
    + assert (v = VNull) by (destruct v; try discriminate; auto). subst. inversion Hl; subst. inversion Hr; subst.
      exists VNull, h, [], []. split; [reflexivity|]. split; [apply extends_refl|]. split; [constructor|]. apply removed_nil_all.
    + st P. st P.
      destruct (remove_ok "remove*" k y xs h v os n Hl Hr ltac:(auto) Hs ltac:(simpl in Hf; lia))
        as (r & h1 & ys & ps & Er & X & L & Rm).
      rewrite (bind_ok _ _ _ _ _ Er).
      assert (RE : forall vs xs', Forall2 (reads h) vs xs' -> Forall2 (reads h1) vs xs').
      { intros vs xs'. apply Forall2_imp. intros; eapply reads_ext; eauto. }
      destruct (IH h1 d l' r ys ps n) as (r2 & h2 & zs & qs & E2 & X2 & L2 & R2); auto.
      * eapply list_at_ext; eauto.
      * apply RE. eapply removed_reads; eauto.
      * eapply removed_small; eauto.
      * pose proof (removed_len _ _ _ _ _ Rm). simpl in Hf; lia.
      * exists r2, h2, zs, qs. split; [exact E2|]. split; [eapply extends_trans; eauto|]. split; auto.
        econstructor; eauto.
Qed.

(** Removal keeps exactly the elements that differ from all keys, in order. *)
Lemma removed_all_spec kos xs os ys ps : removed_all kos xs os ys ps -> length xs = length os ->
  exists keep : list bool, length keep = length xs /\
    (forall i, nth_error keep i = Some true <-> exists o, nth_error os i = Some o /\ ~ In o kos) /\
    ys = map fst (filter snd (combine xs keep)).
Proof.
  assert (One : forall ko xs os ys ps, removed ko xs os ys ps ->
     exists keep, length keep = length xs /\
       (forall i, nth_error keep i = Some true <-> exists o, nth_error os i = Some o /\ o <> ko) /\
       ys = map fst (filter snd (combine xs keep)) /\ ps = map fst (filter snd (combine os keep))).
  { clear. induction 1.
    - exists []. repeat split; auto; intros; [destruct i; discriminate|]. destruct H as (? & H & _). destruct i; discriminate.
    - destruct IHremoved as (keep & Hl & Hk & -> & ->). exists (false :: keep). split; [simpl; auto|]. split; [|auto].
      intros [|i]; simpl; [|apply Hk]. split; [discriminate|]. intros (? & [= <-] & C); congruence.
    - destruct IHremoved as (keep & Hl & Hk & -> & ->). exists (true :: keep). split; [simpl; auto|]. split; [|auto].
      intros [|i]; simpl; [|apply Hk]. split; eauto. }
  induction 1 as [|ko kos xs os ys ps zs qs Hr Ha IH]; intros Hlen.
  - exists (repeat true (length xs)). rewrite repeat_length. split; auto. split.
    + intros i. split.
      * intros H. assert (i < length os) by (rewrite <- Hlen, <- (repeat_length true (length xs)); apply nth_error_Some; congruence).
        destruct (nth_error os i) eqn:E; [eauto|]. apply nth_error_None in E; lia.
      * intros (o & H & _). assert (i < length xs) by (rewrite Hlen; apply nth_error_Some; congruence).
        clear - H0. revert i H0. induction xs; simpl; intros; [lia|]. destruct i; auto. simpl. apply IHxs; lia.
    + clear. induction xs; simpl; congruence.
  - destruct (One _ _ _ _ _ Hr) as (k1 & L1 & K1 & Ey & Ep).
    assert (Hlp : length ys = length ps).
    { clear - Hr. induction Hr; simpl; auto. }
    destruct (IH Hlp) as (k2 & L2 & K2 & Ez). subst zs.
    (* merge the two masks *)
    clear IH Ha Hlp. revert xs os k1 k2 Hr L1 K1 Ey Ep L2 K2 Hlen. 
    intros xs os k1 k2 Hr L1 K1 Ey Ep L2 K2 Hlen.
    subst ys ps. clear Hr. revert os k1 k2 L1 K1 L2 K2 Hlen.
    induction xs as [|x xs IHx]; intros os k1 k2 L1 K1 L2 K2 Hlen.
    + destruct os; [|discriminate]. destruct k1; [|discriminate]. exists []. split; [auto|]. split; [|destruct k2; auto].
      intros i. split; [destruct i; discriminate|]. intros (? & H & _); destruct i; discriminate.
    + destruct os as [|o os]; [discriminate|]. destruct k1 as [|b k1]; [discriminate|].
      assert (K1' : forall i, nth_error k1 i = Some true <-> exists o, nth_error os i = Some o /\ o <> ko)
        by (intros i; apply (K1 (S i))).
      pose proof (K1 0) as K10. simpl in K10.
      destruct b.
      * simpl in L2. destruct k2 as [|c k2]; [discriminate|].
        destruct (IHx os k1 k2) as (keep & HL & HK & HE); auto.
        { intros i. apply (K2 (S i)). }
        exists (c :: keep). split; [simpl; auto|]. split.
        -- intros [|i]; simpl; [|apply HK]. pose proof (K2 0) as K20. simpl in K20. rewrite K20.
           destruct K10 as [K10 _]. destruct (K10 eq_refl) as (o' & [= <-] & Hne).
           split; intros (o' & [= <-] & Hn); exists o; (split; [reflexivity|]).
           ++ intros [C|C]; [apply Hne; auto|apply Hn; exact C].
           ++ intros C. apply Hn. right. exact C.
        -- simpl. destruct c; simpl; rewrite HE; auto.
      * simpl in L2. destruct (IHx os k1 k2) as (keep & HL & HK & HE); auto.
        exists (false :: keep). split; [simpl; auto|]. split; [|simpl; auto].
        intros [|i]; simpl; [|apply HK]. split; [discriminate|]. intros (o' & [= <-] & Hn).
        exfalso. assert (C : Some false = Some true) by (apply K10; exists o; split; auto; intros ->; apply Hn; left; auto).
        discriminate.
Qed.

Lemma assoc_ok k ko lst xs : forall h v ks os fuel,
  list_at h v xs -> Forall2 (fun c k' => exists d, pair_at h c = Some (k', d)) xs ks ->
  Forall2 (reads h) ks os -> reads h k ko -> osize ko < efuel -> length xs <= fuel ->
  exists r, l_assoc ext efuel fuel k lst v h = HOk r h /\
    ((exists xs1 xs2 os1 os2, xs = xs1 ++ r :: xs2 /\ os = os1 ++ ko :: os2 /\
        length xs1 = length os1 /\ ~ In ko os1) \/
     (r = VFalse /\ ~ In ko os)).
Proof.
  induction xs as [|x xs IH]; intros h v ks os fuel Hl Hp Hr Hk Hs Hf; inversion Hp; subst; inversion Hr; subst.
  - apply list_at_nil in Hl; subst. exists VFalse. split; [destruct fuel; reflexivity|]. right; auto.
  - destruct (list_at_cons_inv _ _ _ _ Hl) as (l & d & -> & E & Hd & P).
    match goal with H : exists d, pair_at h x = Some (_, d) |- _ => destruct H as (dd & Pc) end.
    destruct fuel as [|n]; [simpl in Hf; lia|]. cbn [l_assoc nullp].
    rewrite (if_pair_ok _ _ _ _ _ _ P). st P. rewrite (if_pair_ok _ _ _ _ _ _ Pc). st Pc. unfold m_equal.
    match goal with H : reads h y ?o |- _ => rename o into oy; rename H into Hy end.
    destruct (obj_eq_cases ext h k ko y oy Hk Hy Hs) as [[<- Eq]|[Ne Eq]].
    + erewrite bind_ok by (rewrite Eq; reflexivity). exists x. split; [reflexivity|]. left.
      eexists [], xs, [], _. repeat split; auto.
    + erewrite bind_ok by (rewrite Eq; reflexivity). cbv iota. st P.
      match goal with H : Forall2 (reads h) l' ?o |- _ => rename o into os'; rename H into Hos end.
      destruct (IH h d l' os' n ltac:(auto) ltac:(auto) ltac:(auto) Hk Hs ltac:(simpl in Hf; lia)) as (r & Er & Hc).
      exists r. split; [exact Er|]. destruct Hc as [(xs1 & xs2 & os1 & os2 & -> & -> & Hlen & Hni)|[-> Hni]].
      * left. exists (x :: xs1), xs2, (oy :: os1), os2. repeat split; simpl; auto. intros [|]; auto.
      * right. split; auto. intros [|]; auto.
Qed.

Lemma index_of_ok k ko xs : forall h v os i fuel,
  list_at h v xs -> Forall2 (reads h) xs os -> reads h k ko -> osize ko < efuel -> length xs <= fuel ->
  (exists os1 os2, os = os1 ++ ko :: os2 /\ ~ In ko os1 /\
     l_index_of ext efuel fuel k v i h = HOk (VFix (i + Z.of_nat (length os1))) h) \/
  (~ In ko os /\ l_index_of ext efuel fuel k v i h = HOk VFalse h).
Proof.
  induction xs as [|x xs IH]; intros h v os i fuel Hl Hr Hk Hs Hf; inversion Hr; subst.
  - apply list_at_nil in Hl; subst. right. split; auto. destruct fuel; reflexivity.
  - destruct (list_at_cons_inv _ _ _ _ Hl) as (l & d & -> & E & Hd & P).
    destruct fuel as [|n]; [simpl in Hf; lia|]. cbn [l_index_of nullp].
    rewrite (if_pair_ok _ _ _ _ _ _ P). st P. unfold m_equal.
    destruct (obj_eq_cases ext h k ko x y Hk ltac:(auto) Hs) as [[<- Eq]|[Ne Eq]].
    + left. exists [], l'. repeat split; auto. erewrite bind_ok by (rewrite Eq; reflexivity).
      cbn. now rewrite Z.add_0_r.
    + erewrite bind_ok by (rewrite Eq; reflexivity). cbv iota. st P.
      destruct (IH h d l' (i + 1)%Z n ltac:(auto) ltac:(auto) Hk Hs ltac:(simpl in Hf; lia))
        as [(os1 & os2 & -> & Hni & Er)|[Hni Er]].
      * left. exists (y :: os1), os2. repeat split; simpl; auto. { intros [|]; auto. }
        rewrite Er. do 2 f_equal. simpl length. lia.
      * right. split; auto. intros [|]; auto.
Qed.
End Eq.
