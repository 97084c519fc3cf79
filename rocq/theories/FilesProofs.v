(** Lemmas about Files.v. *)
From Coq Require Import ZArith NArith Bool Ascii String List Arith Lia.
From Verif Require Import Base Heap HeapM Ast Code Sem Vm Raise Path Files.
Import ListNotations.
Local Open Scope list_scope.
Local Open Scope nat_scope.

(** * Evaluation inside another one *)
(** eval_istream called by a primitive, eval.c:437-466: the thread goes on with the frame
    pointer and the continuation of the caller, and the return address of the frame is
    overwritten. *)
Definition inner_start (c : code) (m : mst) : mst :=
  M c 0 RNull RNull (RV VVoid) 0 (m_sfp m) (upd_stk (m_sfp m) (SRa None) (m_stk m)) (m_cc m) (m_env m) (m_vc m) (m_vals m) (m_data m).

Fixpoint frames (b sfp : nat) (ks : list cont) : Prop :=
  match ks with
  | [] => sfp = b
  | k :: r => k_sfp k < sfp /\ frames b (k_sfp k) r
  end.
Lemma frames_le b : forall ks sfp, frames b sfp ks -> b <= sfp.
Proof. induction ks as [|k r IH]; cbn; intros sfp H; [lia|]. destruct H as [H1 H2]. specialize (IH _ H2). lia. Qed.

Section Inv.
  Variable b : nat.
  Variable cc0 : list cont.
  Definition inv (m : mst) : Prop :=
    m_stk m b = SRa None /\ exists ks, m_cc m = ks ++ cc0 /\ frames b (m_sfp m) ks.
  Lemma push_all_low : forall vs stk i, b < i -> push_all stk i vs b = stk b.
  Proof.
    induction vs as [|v r IH]; intros stk i H; cbn; [reflexivity|].
    rewrite IH by lia. unfold upd_stk. destruct (Nat.eqb_spec b i); [lia|reflexivity].
  Qed.
  (** A step that keeps the frame pointer and the continuation, and writes above it. *)
  Lemma inv_same m m' : inv m -> m_sfp m' = m_sfp m -> m_cc m' = m_cc m -> m_stk m' b = m_stk m b -> inv m'.
  Proof. intros [H1 (ks & H2 & H3)] E1 E2 E3. split; [congruence|]. exists ks. rewrite E1, E2. auto. Qed.
End Inv.

Section Steps.
  Variable prim : N -> list val -> heap -> option presult.
  Variable b : nat.
  Variable cc0 : list cont.
  Hypothesis Hb : 0 < b.
  Definition ok_out (o : outcome) : Prop :=
    match o with
    | Next m | Fail _ m | Raise m => inv b cc0 m
    | Done _ _ => False
    | Undef => True
    end.
  Lemma inv_low m : inv b cc0 m -> b <= m_sfp m.
  Proof. intros [_ (ks & _ & H)]. apply frames_le in H. exact H. Qed.
  Lemma application_inv m : inv b cc0 m -> ok_out (do_application m).
  Proof.
    intros H. unfold do_application. destruct (m_cp m); cbn; auto.
    destruct v; cbn; auto. destruct (clo_ref _ _); cbn; auto; (try exact H); apply (inv_same _ _ m); auto.
  Qed.
  Ltac same := cbn [ok_out]; (eapply inv_same; [eassumption|reflexivity|reflexivity|cbn; try reflexivity]).
  Ltac dmatch :=
    repeat match goal with
           | |- ok_out (match ?x with _ => _ end) => destruct x eqn:?
           | |- ok_out (if ?x then _ else _) => destruct x eqn:?
           | |- ok_out (let '(_, _) := ?x in _) => destruct x eqn:?
           end.
  Lemma store_inv m r x m' : store_reg m r x = Some m' -> m_sfp m' = m_sfp m /\ m_cc m' = m_cc m /\ m_stk m' = m_stk m.
  Proof. destruct r; cbn; intros H; try discriminate; try (injection H as <-; auto); destruct x; try discriminate; injection H as <-; auto. Qed.
  Lemma exec_inv i m : inv b cc0 m -> ok_out (Vm.exec prim i m).
  Proof.
    intros H. pose proof (inv_low m H) as Hl.
    destruct i; cbn [Vm.exec]; unfold single, or_undef, next; dmatch; try exact Logic.I; try (same; fail); try (apply application_inv; exact H); try exact H.
    - same. unfold upd_stk. destruct (Nat.eqb_spec b (S (m_sfp m + m_ac m))); [lia|reflexivity].
    - apply store_inv in Heqo0. destruct Heqo0 as (E1 & E2 & E3). apply (inv_same _ _ m); cbn; auto. now rewrite E3.
    - apply Nat.eqb_eq in Heqb0. lia.
    - destruct H as [H1 (ks & H2 & H3)]. destruct ks as [|k ks].
      + cbn in H3. rewrite H3, H1 in Heqs. discriminate.
      + cbn in H2. rewrite Heql in H2. injection H2 as -> ->. cbn in H3. split; [exact H1|]. exists ks. split; [reflexivity|]. apply H3.
    - destruct H as [H1 (ks & H2 & H3)]. split; cbn.
      + unfold upd_stk. destruct (Nat.eqb_spec b (m_sfp m + S (m_ac m))); [lia|exact H1].
      + exists (Cont (m_env m) (m_sfp m) (m_cp m) (m_ac m) :: ks). rewrite H2. split; [reflexivity|]. cbn. split; [lia|exact H3].
    - apply store_inv in Heqo. destruct Heqo as (E1 & E2 & E3). apply (inv_same _ _ m); cbn; auto. now rewrite E3.
    - apply application_inv. apply (inv_same _ _ m); cbn; auto. rewrite !push_all_low by lia. reflexivity.
    - same. apply push_all_low. lia.
  Qed.
  Lemma step_inv m : inv b cc0 m -> ok_out (step prim m).
  Proof. intros H. unfold step. destruct (nth_error _ _); [now apply exec_inv|exact Logic.I]. Qed.

  (** The same with handlers of errors. *)
  Variables p_set p_get p_cset : N.
  Variable describe : err -> option (list byte) * list byte * list val.
  Definition ok_x (o : xout) : Prop :=
    match o with
    | XNext t => inv b cc0 (x_m t)
    | XDone _ _ => False
    | XShutdown | XLoop | XUndef => True
    end.
  Lemma c_error_inv t e m : inv b cc0 m -> ok_x (c_error describe t e m).
  Proof.
    intros H. pose proof (inv_low m H) as Hl. unfold c_error.
    assert (K : ok_x (let '(n, s, l, h) := report describe e (d_heap (m_data m)) in
        let stk := push_all (m_stk m) (S (m_sfp m)) [n; s; l] in
        let m' := M (m_code m) (m_pc m) RNull RNull (RV (x_chandler t)) 3 (m_sfp m) stk (m_cc m) (m_env m) (m_vc m) (m_vals m) (with_heap (m_data m) h) in
        match do_application m' with
        | Next m1 => XNext (Thr m1 (x_handler t) (x_chandler t))
        | Fail _ _ => XLoop
        | _ => XUndef
        end)).
    { destruct (report describe e (d_heap (m_data m))) as [[[n s] l] h]. cbv zeta.
      match goal with |- ok_x (match do_application ?x with _ => _ end) => assert (J : ok_out (do_application x)) end.
      { apply application_inv. apply (inv_same _ _ m); cbn [m_sfp m_cc m_stk]; auto. apply push_all_low. lia. }
      destruct (do_application _); cbn in *; auto. }
    destruct (m_cc m) as [|k cc]; [exact Logic.I|]. destruct (x_chandler t); try exact Logic.I; exact K.
  Qed.
  Lemma c_raise_inv t m : inv b cc0 m -> ok_x (c_raise describe t m).
  Proof.
    intros H. unfold c_raise.
    assert (K : ok_x (match do_application (set_cp m (RV (x_handler t)) (m_ac m)) with
        | Next m1 => XNext (Thr m1 (x_handler t) (x_chandler t))
        | Fail e m1 => c_error describe t e m1
        | _ => XUndef
        end)).
    { assert (J : ok_out (do_application (set_cp m (RV (x_handler t)) (m_ac m)))).
      { apply application_inv. apply (inv_same _ _ m); auto. }
      destruct (do_application _); cbn in *; auto. now apply c_error_inv. }
    destruct (x_handler t); try exact Logic.I; exact K.
  Qed.
  Lemma xstep_inv t : inv b cc0 (x_m t) -> ok_x (xstep prim p_set p_get p_cset describe t).
  Proof.
    intros H. unfold xstep.
    assert (P : ok_x (match step prim (x_m t) with
      | Next m1 => XNext (Thr m1 (x_handler t) (x_chandler t))
      | Done r m1 => XDone r (Thr m1 (x_handler t) (x_chandler t))
      | Fail e m1 => c_error describe t e m1
      | Raise m1 => c_raise describe t m1
      | Undef => XUndef
      end)).
    { pose proof (step_inv _ H) as J. destruct (step prim (x_m t)); cbn in *; auto; [now apply c_error_inv|now apply c_raise_inv]. }
    destruct (nth_error _ _) as [i|]; [|exact P]. destruct i; try exact P.
    unfold handler_prim.
    destruct (N.eqb p p_set). { destruct (frame_args (x_m t)) as [[|v [|]]|]; cbn; auto; eapply inv_same; eauto; reflexivity. }
    destruct (N.eqb p p_get). { destruct (frame_args (x_m t)) as [[|v [|]]|]; cbn; auto; eapply inv_same; eauto; reflexivity. }
    destruct (N.eqb p p_cset). { destruct (frame_args (x_m t)) as [[|v [|]]|]; cbn; auto; eapply inv_same; eauto; reflexivity. }
    exact P.
  Qed.
  Lemma xreaches_inv t t' : xreaches prim p_set p_get p_cset describe t t' -> inv b cc0 (x_m t) -> inv b cc0 (x_m t').
  Proof.
    induction 1 as [|t t1 t2 E R IH]; intros H; [exact H|]. apply IH. pose proof (xstep_inv t H) as J. rewrite E in J. exact J.
  Qed.
End Steps.
Lemma inner_inv c m : inv (m_sfp m) (m_cc m) (inner_start c m).
Proof.
  split; cbn; [unfold upd_stk; now rewrite Nat.eqb_refl|]. exists []. split; [reflexivity|]. reflexivity.
Qed.

(** * Paths *)
Section Paths.
  Variables E V : Type.
  Notation fs := (fs E V).
  (** A name that a directory entry can have. *)
  Definition good_name (n : name) : Prop := n <> [] /\ n <> dot /\ n <> dotdot /\ ~ In slash n.
  (** A file system: a tree of directories from the root. *)
  Record tree (F : fs) : Prop := Tree {
    t_root : is_dir E V F [] = true;
    t_parent : forall p n, exists_at E V F (p ++ [n]) = true -> is_dir E V F p = true /\ good_name n;
    t_excl : forall p, is_dir E V F p = true -> contents E V F p = None }.
  Variable F : fs.
  Hypothesis T : tree F.

  Lemma name_eqb_neq a b : a <> b -> name_eqb a b = false.
  Proof. intros H. unfold name_eqb. destruct (list_eq_dec ascii_dec a b); congruence. Qed.
  Lemma dir_exists p : is_dir E V F p = true -> exists_at E V F p = true.
  Proof. intros H. unfold exists_at. now rewrite H. Qed.
  Lemma dir_good : forall p, exists_at E V F p = true -> Forall good_name p.
  Proof.
    intros p. induction p as [|n p IH] using rev_ind; intros H; [constructor|].
    destruct (t_parent F T _ _ H) as [H1 H2]. apply Forall_app. split; [apply IH; now apply dir_exists|repeat constructor; apply H2].
  Qed.
  Lemma walk_app : forall a cur b, walk E V F cur (a ++ b) = match walk E V F cur a with Some c => walk E V F c b | None => None end.
  Proof.
    induction a as [|c r IH]; intros cur b; cbn; [reflexivity|].
    destruct (is_dir E V F cur); [|reflexivity]. destruct (name_eqb c [] || name_eqb c dot); [apply IH|].
    destruct (name_eqb c dotdot); [apply IH|]. destruct (exists_at E V F (cur ++ [c])); [apply IH|reflexivity].
  Qed.
  Lemma walk_names : forall p, exists_at E V F p = true -> walk E V F [] p = Some p.
  Proof.
    intros p. induction p as [|n p IH] using rev_ind; intros H; [reflexivity|].
    destruct (t_parent F T _ _ H) as [H1 (G1 & G2 & G3 & G4)]. rewrite walk_app, IH by now apply dir_exists. cbn. rewrite H1.
    rewrite !name_eqb_neq by assumption. cbn. now rewrite H.
  Qed.
  Lemma removelast_dir p : is_dir E V F p = true -> is_dir E V F (removelast p) = true.
  Proof.
    destruct p as [|n p] using rev_ind; intros H; [exact H|]. rewrite removelast_last. apply (t_parent F T p n). now apply dir_exists.
  Qed.
  Lemma walk_exists : forall cs cur p, exists_at E V F cur = true -> walk E V F cur cs = Some p -> exists_at E V F p = true.
  Proof.
    induction cs as [|c r IH]; cbn; intros cur p H W; [injection W as <-; exact H|].
    destruct (is_dir E V F cur) eqn:D; [|discriminate]. destruct (name_eqb c [] || name_eqb c dot); [eauto|].
    destruct (name_eqb c dotdot). { eapply IH; [|exact W]. apply dir_exists. now apply removelast_dir. }
    destruct (exists_at E V F (cur ++ [c])) eqn:X; [eauto|discriminate].
  Qed.
  Lemma resolve_exists cwd s p : is_dir E V F cwd = true -> resolve E V F cwd s = Some p -> exists_at E V F p = true.
  Proof.
    intros H. unfold resolve. destruct s as [|c s]; [discriminate|]. apply walk_exists. apply dir_exists. destruct (Ascii.eqb c slash); [apply (t_root F T)|exact H].
  Qed.
  Lemma split_clean : forall n cur s, ~ In slash n -> split_at cur (n ++ s) = split_at (rev n ++ cur) s.
  Proof.
    induction n as [|c n IH]; intros cur s H; [reflexivity|]. cbn [app split_at].
    destruct (Ascii.eqb_spec c slash) as [->|_]; [exfalso; apply H; now left|].
    rewrite IH by (intros K; apply H; now right). cbn. now rewrite <- app_assoc.
  Qed.
  Lemma split_join : forall p cur s, Forall good_name p ->
    split_at cur (join p ++ s) = match rev p with
                                 | [] => split_at cur s
                                 | n :: r => rev cur :: removelast p ++ split_at (rev n) s
                                 end.
  Proof.
    induction p as [|n p IH]; intros cur s H; [reflexivity|].
    inversion H as [|? ? (G1 & G2 & G3 & G4) H2]; subst. cbn [join app split_at]. rewrite Ascii.eqb_refl.
    rewrite <- app_assoc, split_clean by assumption. rewrite app_nil_r, IH by assumption.
    destruct p as [|m p]; [reflexivity|].
    cbn [rev]. destruct (rev p ++ [m]) as [|x r] eqn:R; [destruct (rev p); discriminate|].
    cbn [app]. rewrite rev_involutive. reflexivity.
  Qed.
  Lemma split_join_end p : p <> [] -> Forall good_name p -> split (join p) = [] :: p.
  Proof.
    intros N H. unfold split. rewrite <- (app_nil_r (join p)), split_join by assumption.
    destruct p as [|n p] using rev_ind; [contradiction|]. rewrite rev_app_distr. cbn [rev app]. rewrite removelast_last. cbn. now rewrite rev_involutive.
  Qed.
  Lemma split_join_slash p : Forall good_name p -> split (join p ++ [slash]) = [] :: p ++ [[]].
  Proof.
    intros H. unfold split. rewrite split_join by assumption.
    destruct p as [|n p] using rev_ind; [reflexivity|]. rewrite rev_app_distr. cbn [rev app]. rewrite removelast_last. cbn. rewrite rev_involutive.
    now rewrite <- app_assoc.
  Qed.
  Lemma resolve_abs cwd s : resolve E V F cwd (slash :: s) = walk E V F [] (split (slash :: s)).
  Proof. reflexivity. Qed.
  Lemma walk_empty r : walk E V F [] ([] :: r) = walk E V F [] r.
  Proof. cbn [walk]. rewrite (t_root F T). reflexivity. Qed.
  Lemma resolve_render cwd p : exists_at E V F p = true -> resolve E V F cwd (render p) = Some p.
  Proof.
    intros H. destruct p as [|n p].
    - cbn. now rewrite (t_root F T).
    - cbn [render]. change (join (n :: p)) with (slash :: n ++ join p). rewrite resolve_abs.
      change (slash :: n ++ join p) with (join (n :: p)). rewrite split_join_end; [|discriminate|now apply dir_good].
      rewrite walk_empty. now apply walk_names.
  Qed.
  Lemma up_to_clean : forall n s, ~ In slash n -> up_to_slash (n ++ slash :: s) = Some (slash :: s).
  Proof.
    induction n as [|c n IH]; intros s H; [reflexivity|]. cbn. destruct (Ascii.eqb_spec c slash) as [->|_]; [exfalso; apply H; now left|].
    apply IH. intros K. apply H. now right.
  Qed.
  Lemma join_app : forall p q, join (p ++ q) = join p ++ join q.
  Proof. induction p as [|n p IH]; intros q; [reflexivity|]. cbn. rewrite IH. now rewrite <- !app_assoc. Qed.
  Lemma file_dir_render p : exists_at E V F p = true ->
    get_file_dir (render p) = Some (join (removelast p) ++ [slash]).
  Proof.
    intros H. destruct p as [|n p] using rev_ind; [reflexivity|].
    destruct (t_parent F T _ _ H) as [H1 (G1 & G2 & G3 & G4)].
    assert (R : render (p ++ [n]) = join p ++ slash :: n).
    { transitivity (join (p ++ [n])); [destruct p; reflexivity|]. rewrite join_app. cbn. now rewrite app_nil_r. }
    unfold get_file_dir. rewrite R, removelast_last, rev_app_distr. cbn [rev]. rewrite <- app_assoc. cbn [app].
    rewrite up_to_clean by (rewrite <- in_rev; exact G4). cbn. now rewrite rev_involutive.
  Qed.
  Lemma resolve_dir cwd p : is_dir E V F p = true -> resolve E V F cwd (join p ++ [slash]) = Some p.
  Proof.
    intros H. assert (W : walk E V F [] (split (join p ++ [slash])) = Some p).
    { rewrite split_join_slash by (apply dir_good; now apply dir_exists). rewrite walk_empty, walk_app, walk_names by now apply dir_exists. cbn. now rewrite H. }
    destruct p as [|n p]; exact W.
  Qed.
  Lemma parent_dir p : exists_at E V F p = true -> is_dir E V F (removelast p) = true.
  Proof.
    destruct p as [|n p] using rev_ind; intros H; [apply (t_root F T)|]. rewrite removelast_last. now apply (t_parent F T p n).
  Qed.
End Paths.
