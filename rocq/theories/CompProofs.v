(** Static properties of compiled code. *)
From Coq Require Import ZArith NArith Bool Ascii String List Arith Lia.
From Verif Require Import Base Heap Ast FreeVars Code CodeProofs Compile CompRel.
Import ListNotations.
Local Open Scope list_scope.

(** ** Labels, jump targets and templates *)

Definition refs_in (L : list nat) (n : nat) (its : list sitem) : Prop :=
  forall i, In (Ins i) its ->
    (forall l, target i = Some l -> In l L) /\ (forall k m, i = Imake_closure k m -> k < n).

Lemma refs_app L n a b : refs_in L n a -> refs_in L n b -> refs_in L n (a ++ b).
Proof. intros A B i I. apply in_app_iff in I. destruct I; auto. Qed.
Lemma refs_mono L L' n n' its : refs_in L n its -> incl L L' -> n <= n' -> refs_in L' n' its.
Proof. intros R I LE i J. destruct (R i J) as [R1 R2]. split; [intros; apply I; auto|]. intros k m E. specialize (R2 k m E). lia. Qed.
Lemma refs_nil L n : refs_in L n [].
Proof. intros i []. Qed.
Lemma refs_cons_lab L n l its : refs_in L n its -> refs_in L n (Lab l :: its).
Proof. intros R i [E|I]; [discriminate|auto]. Qed.
Lemma refs_cons L n i its :
  (forall l, target i = Some l -> In l L) -> (forall k m, i = Imake_closure k m -> k < n) -> refs_in L n its ->
  refs_in L n (Ins i :: its).
Proof. intros H1 H2 R j [[= <-]|I]; auto. Qed.

Lemma NoDup_app {A} (a b : list A) : NoDup a -> NoDup b -> (forall x, In x a -> In x b -> False) -> NoDup (a ++ b).
Proof.
  induction a as [|x r IH]; simpl; auto. intros NA NB D. inversion NA; subst. constructor.
  - rewrite in_app_iff. intros [I|I]; eauto.
  - apply IH; eauto.
Qed.

Record good (s : cst) (its : list sitem) (s' : cst) : Prop := Good {
  g_labels : labels s <= labels s';
  g_tmpls : exists ext, tmpls s' = ext ++ tmpls s;
  g_nodup : NoDup (labs its);
  g_range : forall l, In l (labs its) -> labels s <= l < labels s';
  g_refs : refs_in (labs its) (List.length (tmpls s')) its }.

(** The labels of the clauses of a procedure: the label of the first clause is
    given by the caller, the last one is used by it. *)
Record goodc (label : option nat) (s : cst) (its : list sitem) (label' : option nat) (s' : cst) : Prop := Goodc {
  gc_labels : labels s <= labels s';
  gc_tmpls : exists ext, tmpls s' = ext ++ tmpls s;
  gc_nodup : NoDup (labs its ++ match label' with Some l => [l] | None => [] end);
  gc_range : forall l, In l (labs its ++ match label' with Some l => [l] | None => [] end) ->
             label = Some l \/ labels s <= l < labels s';
  gc_refs : refs_in (labs its ++ match label' with Some l => [l] | None => [] end) (List.length (tmpls s')) its }.

Lemma tmpls_le s s' : (exists ext, tmpls s' = ext ++ tmpls s) -> List.length (tmpls s) <= List.length (tmpls s').
Proof. intros [ext ->]. rewrite app_length. lia. Qed.
Lemma ext_trans (a b c : list code) : (exists e, b = e ++ a) -> (exists e, c = e ++ b) -> exists e, c = e ++ a.
Proof. intros [e1 ->] [e2 ->]. exists (e2 ++ e1). rewrite app_assoc. auto. Qed.
Lemma ext_refl (a : list code) : exists e, a = e ++ a.
Proof. exists []. auto. Qed.

Lemma good_app s a s1 b s2 : good s a s1 -> good s1 b s2 -> good s (a ++ b) s2.
Proof.
  intros [L1 T1 N1 R1 F1] [L2 T2 N2 R2 F2]. constructor.
  - lia.
  - eapply ext_trans; eauto.
  - rewrite labs_app. apply NoDup_app; auto. intros x I1 I2. apply R1 in I1. apply R2 in I2. lia.
  - intros l I. rewrite labs_app, in_app_iff in I. destruct I as [I|I]; [apply R1 in I|apply R2 in I]; lia.
  - rewrite labs_app. apply refs_app.
    + eapply refs_mono; eauto; [apply incl_appl, incl_refl|]. apply tmpls_le; auto.
    + eapply refs_mono; eauto. apply incl_appr, incl_refl.
Qed.

(** Instructions without labels, jumps and closures. *)
Definition plain (its : list sitem) : Prop :=
  Forall (fun it => match it with Ins i => target i = None /\ forall k m, i <> Imake_closure k m | Lab _ => False end) its.
Lemma plain_labs its : plain its -> labs its = [].
Proof. induction 1 as [|[l|i] r H F IH]; simpl; auto. destruct H. Qed.
Lemma plain_refs L n its : plain its -> refs_in L n its.
Proof.
  intros P i I. red in P. rewrite Forall_forall in P. specialize (P _ I). cbv beta iota in P. destruct P as [P1 P2].
  split; [intros l E; congruence|]. intros k m E. destruct (P2 _ _ E).
Qed.
Lemma plain_good s its : plain its -> good s its s.
Proof.
  intros P. constructor; auto.
  - apply ext_refl.
  - rewrite plain_labs by auto. constructor.
  - rewrite plain_labs by auto. intros l [].
  - apply plain_refs. auto.
Qed.
Lemma plain_app a b : plain a -> plain b -> plain (a ++ b).
Proof. intros. apply Forall_app. auto. Qed.

Ltac plain_tac := repeat (apply Forall_cons; [split; [reflexivity|intros; discriminate]|]); apply Forall_nil.

Lemma plain_fill fvs sc : forall idx, plain (fill_closure idx fvs sc).
Proof.
  induction fvs as [|x r IH]; intros idx; simpl; [constructor|].
  apply plain_app; [unfold lookup_cell; destruct (scope_ref sc x); plain_tac|].
  constructor; [split; [reflexivity|discriminate]|apply IH].
Qed.
Lemma plain_closure_body fvs sc : plain (closure_body fvs sc).
Proof.
  unfold closure_body. destruct fvs; [constructor|].
  apply plain_app; [plain_tac|]. apply plain_app; [apply plain_fill|plain_tac].
Qed.
Lemma plain_bind_args xs : forall k sc its sc', bind_args k xs sc = (its, sc') -> plain its.
Proof.
  induction xs as [|x r IH]; intros k sc its sc' E; simpl in E; [injection E as <- <-; constructor|].
  destruct (bind_args (S k) r (x :: sc)) as [i s] eqn:B. injection E as <- <-.
  constructor; [split; [reflexivity|discriminate]|]. constructor; [split; [reflexivity|discriminate]|]. eapply IH; eauto.
Qed.
Lemma plain_bind_formals fm sc its sc' : bind_formals fm sc = (its, sc') -> plain its.
Proof.
  unfold bind_formals. destruct (bind_args 0 (req fm) sc) as [i s1] eqn:B. apply plain_bind_args in B.
  destruct (rest fm); intros [= <- <-]; auto. apply plain_app; auto. plain_tac.
Qed.

Lemma good_tail s its s' t : good s its s' -> good s (with_tail_ret its t) s'.
Proof. intros G. unfold with_tail_ret. destruct t; auto. eapply good_app; eauto. apply plain_good. plain_tac. Qed.

(** The same with a set [E] of labels that may be jumped to from outside. *)
Record gx (E : list nat) (s : cst) (its : list sitem) (s' : cst) : Prop := Gx {
  x_labels : labels s <= labels s';
  x_tmpls : exists ext, tmpls s' = ext ++ tmpls s;
  x_nodup : NoDup (labs its);
  x_range : forall l, In l (labs its) -> labels s <= l < labels s';
  x_refs : refs_in (E ++ labs its) (List.length (tmpls s')) its }.

Lemma gx_of E s its s' : good s its s' -> gx E s its s'.
Proof. intros [L T N R F]. constructor; auto. eapply refs_mono; eauto. apply incl_appr, incl_refl. Qed.
Lemma gx_close E s its s' : gx E s its s' -> incl E (labs its) -> good s its s'.
Proof. intros [L T N R F] I. constructor; auto. eapply refs_mono; eauto. apply incl_app; auto. apply incl_refl. Qed.
Lemma gx_app E s a s1 b s2 : gx E s a s1 -> gx E s1 b s2 -> gx E s (a ++ b) s2.
Proof.
  intros [L1 T1 N1 R1 F1] [L2 T2 N2 R2 F2]. constructor.
  - lia.
  - eapply ext_trans; eauto.
  - rewrite labs_app. apply NoDup_app; auto. intros x I1 I2. apply R1 in I1. apply R2 in I2. lia.
  - intros l I. rewrite labs_app, in_app_iff in I. destruct I as [I|I]; [apply R1 in I|apply R2 in I]; lia.
  - rewrite labs_app. apply refs_app.
    + eapply refs_mono; eauto; [|apply tmpls_le; auto]. apply incl_app; [apply incl_appl, incl_refl|].
      apply incl_appr, incl_appl, incl_refl.
    + eapply refs_mono; eauto. apply incl_app; [apply incl_appl, incl_refl|]. apply incl_appr, incl_appr, incl_refl.
Qed.
Lemma gx_jump E s (i : instr nat nat) l : target i = Some l -> In l E -> (forall k m, i <> Imake_closure k m) -> gx E s [Ins i] s.
Proof.
  intros T I N. constructor; simpl; auto.
  - apply ext_refl.
  - constructor.
  - intros x [].
  - apply refs_cons; [|intros k m E'; destruct (N _ _ E')|apply refs_nil].
    intros x E'. rewrite T in E'. injection E' as <-. apply in_app_iff. auto.
Qed.
Lemma NoDup_insert (a b : list nat) l : NoDup (a ++ b) -> ~ In l (a ++ b) -> NoDup (a ++ l :: b).
Proof.
  induction a as [|x r IH]; simpl; intros N NI; [constructor; auto|].
  inversion N; subst. constructor; [|apply IH; auto]. rewrite in_app_iff in *. simpl. intuition.
Qed.
Lemma gx_insert_refs E n (a b : list sitem) l : refs_in (E ++ labs (a ++ b)) n (a ++ b) -> refs_in (E ++ labs (a ++ Lab l :: b)) n (a ++ Lab l :: b).
Proof.
  intros R. assert (R' : refs_in (E ++ labs (a ++ Lab l :: b)) n (a ++ b)).
  { eapply refs_mono; eauto. rewrite !labs_app. simpl. intros x. rewrite !in_app_iff. simpl. tauto. }
  intros i I. apply R'. rewrite in_app_iff in *. simpl in I. destruct I as [I|[I|I]]; auto. discriminate.
Qed.
Lemma gx_insert E s a b s' l :
  gx E s (a ++ b) s' -> labels s' <= l -> gx E s (a ++ Lab l :: b) (CSt (S l) (tmpls s')).
Proof.
  intros [L T N R F] LE. constructor; simpl.
  - lia.
  - auto.
  - rewrite labs_app in *. simpl. apply NoDup_insert; auto. intros I. apply R in I. lia.
  - intros x I. rewrite labs_app, in_app_iff in I. simpl in I. specialize (R x). rewrite labs_app, in_app_iff in R.
    destruct I as [I|[<-|I]]; [specialize (R (or_introl I))| |specialize (R (or_intror I))]; lia.
  - apply gx_insert_refs. exact F.
Qed.
Lemma gx_insert_low E s a b s' :
  gx E (CSt (S (labels s)) (tmpls s)) (a ++ b) s' -> gx E s (a ++ Lab (labels s) :: b) s'.
Proof.
  intros [L T N R F]. simpl in *. constructor; simpl.
  - lia.
  - auto.
  - rewrite labs_app in *. simpl. apply NoDup_insert; auto. intros I. apply R in I. lia.
  - intros x I. rewrite labs_app, in_app_iff in I. simpl in I. specialize (R x). rewrite labs_app, in_app_iff in R.
    destruct I as [I|[<-|I]]; [specialize (R (or_introl I))| |specialize (R (or_intror I))]; lia.
  - apply gx_insert_refs. exact F.
Qed.
Lemma gx_plain E s its : plain its -> gx E s its s.
Proof. intros. apply gx_of, plain_good. auto. Qed.

Lemma good_wrap s its s' post :
  good (CSt (S (labels s)) (tmpls s)) its s' -> plain post ->
  good s ([ins (Isave_cc (labels s))] ++ its ++ post ++ [Lab (labels s)]) s'.
Proof.
  intros G P. rewrite !app_assoc. apply (gx_close [labels s]).
  - apply gx_insert_low. rewrite app_nil_r. eapply gx_app; [eapply gx_app|].
    + eapply gx_jump; [reflexivity|simpl; auto|discriminate].
    + apply gx_of. exact G.
    + apply gx_plain. auto.
  - intros x [<-|[]]. rewrite labs_app, in_app_iff. simpl. auto.
Qed.

Lemma comp_good :
  (forall e sc t s its s', comp e sc t s its s' -> good s its s') /\
  (forall es sc t s its s', cseq es sc t s its s' -> good s its s') /\
  (forall es sc s its s', cargs es sc s its s' -> good s its s') /\
  (forall cls bounds fvs label ar s its label' ar' s',
     cclauses cls bounds fvs label ar s its label' ar' s' ->
     (forall l, label = Some l -> l < labels s) ->
     goodc label s its label' s').
Proof.
  apply comp_all; intros;
    try (apply good_tail, plain_good; plain_tac).
  - (* variable *) apply good_tail, plain_good. constructor; [|constructor]. destruct (scope_ref sc x); split; auto; discriminate.
  - (* define *) apply good_tail. eapply good_app; eauto. apply plain_good; plain_tac.
  - (* set! *) apply good_tail. eapply good_app; eauto. apply plain_good. constructor; [|constructor].
    destruct (scope_ref sc x); split; auto; discriminate.
  - (* procedure *)
    destruct (H1 ltac:(discriminate)) as [L T N R F]. simpl in T. destruct T as [ext T].
    apply good_tail. constructor; simpl.
    + lia.
    + exists (c :: ext). rewrite T. reflexivity.
    + rewrite plain_labs by apply plain_closure_body. constructor.
    + rewrite plain_labs by apply plain_closure_body. intros x [].
    + apply refs_cons; [discriminate|intros k m [= <- _]; lia|]. apply plain_refs, plain_closure_body.
  - (* mv-call, tail *)
    eapply good_app; eauto. eapply good_app; [apply plain_good; plain_tac|].
    eapply good_app; eauto. apply plain_good; plain_tac.
  - (* mv-call *)
    replace ([ins (Isave_cc (labels s))] ++ its1 ++ [ins Iclear_frame; ins Ido_with_values] ++ its2
             ++ [ins Iset_proc; ins Iapply] ++ [Lab (labels s)])
      with ([ins (Isave_cc (labels s))] ++ (its1 ++ [ins Iclear_frame; ins Ido_with_values] ++ its2)
             ++ [ins Iset_proc; ins Iapply] ++ [Lab (labels s)]) by (rewrite <- !app_assoc; reflexivity).
    apply good_wrap; auto; [|plain_tac].
    eapply good_app; eauto. eapply good_app; [apply plain_good; plain_tac|eauto].
  - (* mv-let *) eapply good_app; eauto. eapply good_app; [apply plain_good; plain_tac|eauto].
  - (* mv-values *) apply good_tail. eapply good_app; [apply plain_good; plain_tac|]. eapply good_app; eauto. apply plain_good; plain_tac.
  - (* begin *) auto.
  - (* if, tail *)
    rewrite !app_assoc. rewrite <- (app_assoc _ [Lab (labels s3)]).
    apply (gx_close [labels s3]).
    + apply gx_insert; auto. eapply gx_app; [eapply gx_app; [eapply gx_app|]|]; try (apply gx_of; eassumption).
      eapply gx_jump; [reflexivity|simpl; auto|discriminate].
    + intros x [<-|[]]. rewrite labs_app, in_app_iff. simpl. auto.
  - (* if *)
    apply (gx_close [labels s3; S (labels s3)]).
    + replace (its1 ++ [ins (Ibranchf (labels s3))] ++ its2 ++ [ins (Ibrancha (S (labels s3))); Lab (labels s3)] ++ its3
               ++ [Lab (S (labels s3))])
        with ((its1 ++ [ins (Ibranchf (labels s3))] ++ its2 ++ [ins (Ibrancha (S (labels s3)))] ++ Lab (labels s3) :: its3)
               ++ Lab (S (labels s3)) :: []) by (rewrite <- !app_assoc; reflexivity).
      apply (gx_insert _ s _ _ (CSt (S (labels s3)) (tmpls s3))); [|simpl; lia]. rewrite app_nil_r.
      rewrite !app_assoc. apply gx_insert; auto.
      eapply gx_app; [eapply gx_app; [eapply gx_app; [eapply gx_app|]|]|]; try (apply gx_of; eassumption);
        (eapply gx_jump; [reflexivity|simpl; auto|discriminate]).
    + intros x [<-|[<-|[]]]; rewrite !labs_app, !in_app_iff; simpl; rewrite ?labs_app, ?in_app_iff; simpl; rewrite ?labs_app, ?in_app_iff; simpl; tauto.
  - (* application, tail *)
    eapply good_app; eauto. eapply good_app; [apply plain_good; plain_tac|]. eapply good_app; eauto. apply plain_good; plain_tac.
  - (* application *)
    replace ([ins (Isave_cc (labels s))] ++ its1 ++ [ins Iset_proc; ins (Icheck_stack (List.length es))] ++ its2
             ++ [ins Iapply] ++ [Lab (labels s)])
      with ([ins (Isave_cc (labels s))] ++ (its1 ++ [ins Iset_proc; ins (Icheck_stack (List.length es))] ++ its2)
             ++ [ins Iapply] ++ [Lab (labels s)]) by (rewrite <- !app_assoc; reflexivity).
    apply good_wrap; auto; [|plain_tac].
    eapply good_app; eauto. eapply good_app; [apply plain_good; plain_tac|eauto].
  - auto.
  - eapply good_app; eauto.
  - apply plain_good. constructor.
  - eapply good_app; eauto. eapply good_app; [apply plain_good; plain_tac|eauto].
  - constructor; simpl; auto.
    + apply ext_refl.
    + destruct label; [|constructor]. repeat constructor. simpl. tauto.
    + intros l I. destruct label as [l0|]; [|destruct I]. destruct I as [->|[]]. auto.
    + apply refs_nil.
  - (* a clause *)
    specialize (H4 ltac:(intros l [= <-]; pose proof (g_labels _ _ _ H2); simpl in *; lia)).
    destruct H2 as [L1 T1 N1 R1 F1]. simpl in L1, T1, R1. destruct H4 as [L2 T2 N2 R2 F2].
    apply plain_bind_formals in H0.
    set (last := match label' with Some l => [l] | None => [] end) in *.
    assert (LS : labs ([clause_start label; clause_branch fm (labels s)]
             ++ [ins (Ipush_env (List.length fvs + List.length (hd [] bounds))); ins Iclosure_bind] ++ binds
             ++ [ins Iclear_frame] ++ its1 ++ its2) = match label with Some l => [l] | None => [] end ++ labs its1 ++ labs its2).
    { rewrite !labs_app, (plain_labs binds) by auto. unfold clause_start. destruct label; reflexivity. }
    assert (R12 : forall x, In x (labs its1 ++ labs its2 ++ last) -> labels s <= x < labels s2).
    { intros x I. rewrite in_app_iff in I. destruct I as [I|I].
      - apply R1 in I. lia.
      - apply R2 in I. destruct I as [[= <-]|I]; lia. }
    constructor.
    + lia.
    + eapply ext_trans; [exact T1|exact T2].
    + rewrite LS, <- !app_assoc. apply NoDup_app.
      * destruct label; repeat constructor. simpl. tauto.
      * apply NoDup_app; auto. intros x I1 I2. apply R1 in I1. apply R2 in I2. destruct I2 as [[= <-]|I2]; lia.
      * intros x I1 I2. apply R12 in I2. destruct label as [l0|]; [|destruct I1]. destruct I1 as [<-|[]].
        specialize (H5 _ eq_refl). lia.
    + intros x I. rewrite LS, <- !app_assoc in I. rewrite in_app_iff in I. destruct I as [I|I]; [left|right].
      * destruct label as [l0|]; [|destruct I]. destruct I as [<-|[]]. auto.
      * auto.
    + rewrite LS.
      assert (LL : In (labels s) (labs its2 ++ last)).
      { clear - H3. inversion H3; subst; simpl; auto. }
      assert (T2' : List.length (tmpls s1) <= List.length (tmpls s2)) by (apply tmpls_le; auto).
      apply refs_app; [|apply refs_app; [apply plain_refs; plain_tac|apply refs_app; [apply plain_refs; auto|
        apply refs_app; [apply plain_refs; plain_tac|apply refs_app]]]].
      * unfold clause_start. destruct label as [l0|]; [apply refs_cons_lab|apply refs_cons; try discriminate];
        (apply refs_cons; [|destruct (has_rest fm); discriminate|apply refs_nil]);
        intros l E; destruct (has_rest fm); injection E as <-; rewrite !in_app_iff in *; tauto.
      * eapply refs_mono; eauto. intros x I. rewrite !in_app_iff. tauto.
      * eapply refs_mono; eauto. intros x I. rewrite !in_app_iff in *. tauto.
Qed.

(** ** The first and the last instruction *)
Definition last_ins (its : list sitem) : Prop := exists r, its = r ++ [ins Iret] \/ its = r ++ [ins Iapply].
Lemma last_ends its : last_ins its -> ends_ins its.
Proof. intros [r [-> | ->]]; [exists Iret, r|exists Iapply, r]; reflexivity. Qed.
Lemma begins_app (a b : list sitem) : begins_ins a -> begins_ins (a ++ b).
Proof. intros [i [r ->]]. exists i, (r ++ b). reflexivity. Qed.
Lemma begins_tail its t : begins_ins its -> begins_ins (with_tail_ret its t).
Proof. destruct t; simpl; auto. apply begins_app. Qed.
Lemma begins_cons i (r : list sitem) : begins_ins (ins i :: r).
Proof. exists i, r. reflexivity. Qed.
Lemma last_ret its : last_ins (with_tail_ret its true).
Proof. exists its. left. reflexivity. Qed.
Lemma last_app (a b : list sitem) : last_ins b -> last_ins (a ++ b).
Proof. intros [r [-> | ->]]; exists (a ++ r); [left|right]; rewrite app_assoc; reflexivity. Qed.
Lemma last_cons x (b : list sitem) : last_ins b -> last_ins (x :: b).
Proof. apply (last_app [x]). Qed.

Lemma comp_shape :
  (forall e sc t s its s', comp e sc t s its s' -> begins_ins its /\ (t = true -> last_ins its)) /\
  (forall es sc t s its s', cseq es sc t s its s' -> begins_ins its /\ (t = true -> last_ins its)) /\
  (forall es sc s its s', cargs es sc s its s' -> True) /\
  (forall cls bounds fvs label ar s its label' ar' s',
     cclauses cls bounds fvs label ar s its label' ar' s' ->
     (label = None -> cls <> [] -> begins_ins its) /\ (cls <> [] \/ label <> None -> label' <> None)).
Proof.
  apply comp_all; intros;
    try (split; [apply begins_tail; try apply begins_app; intuition auto using begins_cons|intros ->; apply last_ret]);
    auto; try (intuition auto using begins_app, begins_cons, last_app, last_cons; fail).
  - split; [intuition auto using begins_app|]. intros _. apply last_app, last_app, last_app. exists [ins Iset_proc]. auto.
  - split; [apply begins_cons|discriminate].
  - split; [intuition auto using begins_app|discriminate].
  - split; [intuition auto using begins_app|]. intros _. apply last_app, last_app, last_app. exists []. auto.
  - split; [apply begins_cons|discriminate].
  - split; [|intros _; apply H4; right; discriminate]. intros -> _. apply begins_cons.
Qed.

(** ** Properties of the procedures made *)
Definition clo (Q : nat -> code -> Prop) (T : list code) (its : list sitem) : Prop :=
  forall k n, In (Ins (Imake_closure k n)) its -> exists c, template T k = Some c /\ Q n c.

Lemma template_ext ext T k c : template T k = Some c -> template (ext ++ T) k = Some c.
Proof.
  unfold template. rewrite rev_app_distr. intros E. rewrite nth_error_app1; auto.
  apply nth_error_Some. congruence.
Qed.
Lemma template_new c T : template (c :: T) (List.length T) = Some c.
Proof. unfold template. simpl. rewrite nth_error_app2; rewrite rev_length; auto. rewrite Nat.sub_diag. reflexivity. Qed.

Lemma clo_app Q T a b : clo Q T a -> clo Q T b -> clo Q T (a ++ b).
Proof. intros A B k n I. apply in_app_iff in I. destruct I; auto. Qed.
Lemma clo_ext Q T T' its : clo Q T its -> (exists e, T' = e ++ T) -> clo Q T' its.
Proof. intros H [e ->] k n I. destruct (H _ _ I) as [c [E q]]. exists c. split; auto. apply template_ext; auto. Qed.
Lemma clo_plain Q T its : plain its -> clo Q T its.
Proof. intros P k n I. red in P. rewrite Forall_forall in P. apply P in I. destruct I as [_ I]. destruct (I _ _ eq_refl). Qed.
Lemma clo_tail Q T its t : clo Q T its -> clo Q T (with_tail_ret its t).
Proof. destruct t; simpl; auto. intros. apply clo_app; auto. apply clo_plain. plain_tac. Qed.
Lemma clo_cons Q T x its : (forall k n, x <> Ins (Imake_closure k n)) -> clo Q T its -> clo Q T (x :: its).
Proof. intros N H k n [E|I]; [destruct (N _ _ E)|auto]. Qed.
Lemma clo_nil Q T : clo Q T [].
Proof. intros k n []. Qed.

Ltac clo_tac :=
  repeat first [ apply clo_nil | (apply clo_cons; [discriminate|]) | apply clo_app
               | (eapply clo_ext; [solve [eauto]|]) ].

Lemma comp_clo (Q : nat -> code -> Prop) :
  (forall e cls bounds s its l ar s1 its' reloc c,
     proc_of e = Some (cls, bounds) ->
     cclauses cls bounds (free_vars e) None ANull s its (Some l) ar s1 ->
     clo Q (tmpls s1) its ->
     resolve_refs (tmpls s1) (its ++ [Lab l; ins Ido_arity_error]) = Some (its', reloc) ->
     write_code its' reloc ar = Some c -> Q (List.length (free_vars e)) c) ->
  (forall e sc t s its s', comp e sc t s its s' -> clo Q (tmpls s') its) /\
  (forall es sc t s its s', cseq es sc t s its s' -> clo Q (tmpls s') its) /\
  (forall es sc s its s', cargs es sc s its s' -> clo Q (tmpls s') its) /\
  (forall cls bounds fvs label ar s its label' ar' s',
     cclauses cls bounds fvs label ar s its label' ar' s' ->
     (forall l, label = Some l -> l < labels s) -> clo Q (tmpls s') its).
Proof.
  intros HQ. destruct comp_good as [GE [GS [GA GC]]].
  apply comp_all; intros; simpl tmpls; try apply clo_tail;
    repeat match goal with H : comp _ _ _ _ _ _ |- _ => apply GE in H; let Y := fresh "T" in pose proof (g_tmpls _ _ _ H) as Y
                         | H : cseq _ _ _ _ _ _ |- _ => apply GS in H; let Y := fresh "T" in pose proof (g_tmpls _ _ _ H) as Y
                         | H : cargs _ _ _ _ _ |- _ => apply GA in H; let Y := fresh "T" in pose proof (g_tmpls _ _ _ H) as Y end; simpl tmpls in *;
    try (clo_tac; eauto using ext_trans, ext_refl; fail).
  - destruct (scope_ref sc x); clo_tac.
  - apply clo_app; auto. destruct (scope_ref sc x); clo_tac.
  - apply clo_app.
    + intros k n [[= <- <-]|[]]. exists c. split; [apply template_new|]. eapply HQ; eauto. apply H1. discriminate.
    + apply clo_plain, plain_closure_body.
  - pose proof (plain_bind_formals _ _ _ _ H0) as P.
    assert (LT : forall l, Some (labels s) = Some l -> l < labels s1).
    { intros l [= <-]. apply g_labels in H1. simpl in H1. lia. }
    assert (T2 := gc_tmpls _ _ _ _ _ (GC _ _ _ _ _ _ _ _ _ _ H3 LT)).
    assert (N : forall k n, clause_start label <> Ins (Imake_closure k n)) by (unfold clause_start; destruct label; discriminate).
    assert (N' : forall k n, clause_branch fm (labels s) <> Ins (Imake_closure k n)) by (unfold clause_branch; destruct (has_rest fm); discriminate).
    simpl app. apply clo_cons; auto. apply clo_cons; auto. apply clo_cons; [discriminate|]. apply clo_cons; [discriminate|].
    apply clo_app; [apply clo_plain; auto|]. apply clo_cons; [discriminate|]. apply clo_app; auto. eapply clo_ext; eauto.
Qed.

(** Every code object made comes from a list of items as in [assembled]. *)
Inductive built : code -> Prop :=
| Built T P P' reloc ar c :
    assembled P -> refs_ok T P ->
    (forall k n, In (Ins (Imake_closure k n)) P -> exists c', template T k = Some c' /\ built c') ->
    resolve_refs T P = Some (P', reloc) -> write_code P' reloc ar = Some c -> built c.

Lemma refs_in_ok T its : refs_in (labs its) (List.length T) its -> refs_ok T its.
Proof.
  intros R i I. destruct (R _ I) as [R1 R2]. split; auto.
Qed.

Lemma clauses_assembled cls bounds fvs s its l ar s1 :
  cls <> [] -> cclauses cls bounds fvs None ANull s its (Some l) ar s1 ->
  assembled (its ++ [Lab l; ins Ido_arity_error]) /\
  refs_ok (tmpls s1) (its ++ [Lab l; ins Ido_arity_error]).
Proof.
  intros NE H. destruct comp_good as [_ [_ [_ GC]]]. destruct comp_shape as [_ [_ [_ SC]]].
  assert (G := GC _ _ _ _ _ _ _ _ _ _ H ltac:(discriminate)). apply SC in H. destruct H as [B _]. specialize (B eq_refl NE).
  destruct G as [_ _ ND _ RF].
  assert (LS : labs (its ++ [Lab l; ins Ido_arity_error]) = labs its ++ [l]) by (rewrite labs_app; reflexivity).
  split; [split; [|split]|].
  - rewrite LS. auto.
  - apply begins_app; auto.
  - exists Ido_arity_error, (its ++ [Lab l]). rewrite <- app_assoc. reflexivity.
  - apply refs_in_ok. rewrite LS. apply refs_app; auto. apply refs_cons_lab. apply refs_cons; try discriminate. apply refs_nil.
Qed.

Lemma proc_cls e cls bounds its fvs l ar s s1 :
  proc_of e = Some (cls, bounds) -> cclauses cls bounds fvs None ANull s its (Some l) ar s1 -> cls <> [].
Proof. intros _ H ->. inversion H. Qed.

Lemma comp_built :
  (forall e sc t s its s', comp e sc t s its s' -> clo (fun _ => built) (tmpls s') its).
Proof.
  apply comp_clo. intros e cls bounds s its l ar s1 its' reloc c PO CC CL R W.
  destruct (clauses_assembled _ _ _ _ _ _ _ _ (proc_cls _ _ _ _ _ _ _ _ _ PO CC) CC) as [A RO].
  econstructor; eauto. intros k n I. apply CL with n. apply in_app_iff in I. destruct I as [I|[I|[I|[]]]]; auto; discriminate.
Qed.

(** The items of a whole program, jit.c:153-188. *)
Definition top_items (e : expr) (its : list sitem) : list sitem :=
  match bound_vars e with [] => its | _ => ins (Ipush_env (List.length (bound_vars e))) :: its end.

Lemma top_inv e c : compile_top e = Some c ->
  exists its s P' reloc, comp e [] true (CSt 0 []) its s /\
    resolve_refs (tmpls s) (top_items e its) = Some (P', reloc) /\ write_code P' reloc (AFix 0) = Some c.
Proof.
  unfold compile_top, top_items. destruct (compile e [] true (CSt 0 [])) as [[its s]|] eqn:C; [|discriminate].
  apply compile_sound in C. intros H. exists its, s.
  destruct (bound_vars e); destruct (resolve_refs (tmpls s) _) as [[P' reloc]|] eqn:R; try discriminate; exists P', reloc; auto.
Qed.

Lemma top_assembled e its s :
  comp e [] true (CSt 0 []) its s -> assembled (top_items e its) /\ refs_ok (tmpls s) (top_items e its).
Proof.
  intros H. destruct comp_good as [GE _]. destruct comp_shape as [SE _].
  assert (G := GE _ _ _ _ _ _ H). apply SE in H. destruct H as [B L]. specialize (L eq_refl).
  destruct G as [_ _ ND _ RF]. unfold top_items. destruct (bound_vars e) as [|x r].
  - split; [split; [|split]|]; auto using last_ends, refs_in_ok.
  - split; [split; [|split]|]; simpl labs; auto.
    + apply begins_cons.
    + apply last_ends, last_cons; auto.
    + apply refs_in_ok. simpl labs. apply refs_cons; try discriminate; auto.
Qed.

Theorem top_built e c : compile_top e = Some c -> built c.
Proof.
  intros H. destruct (top_inv _ _ H) as [its [s [P' [reloc [C [R W]]]]]].
  destruct (top_assembled _ _ _ C) as [A RO]. apply comp_built in C. econstructor; eauto.
  intros k n I. apply C with n. unfold top_items in I. destruct (bound_vars e); auto. destruct I as [I|I]; [discriminate|auto].
Qed.
