(** C64: loading files and the current directory. *)
From Coq Require Import ZArith NArith Bool Ascii String List Arith Lia.
From Verif Require Import Base Heap HeapM Ast Code Sem Vm Raise Path Files FilesProofs.
Import ListNotations.
Local Open Scope list_scope.
Local Open Scope nat_scope.

(** * Specification: what loading a file means *)
Section Spec.
  Variables E V : Type.
  Notation act := (act E V).
  Notation form := (form E V).
  Notation fs := (fs E V).
  Variable F : fs.
  Variable void : V.
  (** A path that leads to [d] from everywhere. *)
  Definition names (p : str) (d : pos) : Prop := forall c, resolve E V F c p = Some d.
  (** The directory that a path means in directory [d]. *)
  Definition dir_at (d : pos) (p : str) (d1 : pos) : Prop := resolve E V F d p = Some d1 /\ is_dir E V F d1 = true.

  (** [runs d a l v d1]: program [a], started in directory [d], does the things [l], ends
      with [v] and leaves the process in directory [d1].
      [loads d f l v]: so does loading [f] in directory [d]: the forms of the file are
      evaluated one after the other, starting in the directory of the file. *)
  Inductive runs : pos -> act -> list E -> V -> pos -> Prop :=
  | RunRet d v : runs d (ARet _ _ v) [] v d
  | RunEmit d e k l v d1 : runs d k l v d1 -> runs d (AEmit _ _ e k) (e :: l) v d1
  | RunPwd d p k l v d1 : names p d -> runs d (k p) l v d1 -> runs d (APwd _ _ k) l v d1
  | RunCd d p k d1 l v d2 : dir_at d p d1 -> runs d1 (k true) l v d2 -> runs d (ACd _ _ p k) l v d2
  | RunCdNot d p k l v d2 : (forall d1, ~ dir_at d p d1) -> runs d (k false) l v d2 -> runs d (ACd _ _ p k) l v d2
  | RunLoad d f h l v : loads d f l v -> runs d (ALoad _ _ f h) l v d
  | RunNested d f k l1 v1 l2 v2 d2 :
      loads d f l1 v1 -> runs d (k true) l2 v2 d2 -> runs d (ANested _ _ f k) (l1 ++ l2) v2 d2
  | RunNestedNot d f k l v d2 :
      resolve E V F d f = None -> runs d (k false) l v d2 -> runs d (ANested _ _ f k) l v d2
  with loads : pos -> str -> list E -> V -> Prop :=
  | LoadFile d f p fms l v d1 :
      resolve E V F d f = Some p -> contents E V F p = Some fms ->
      sequence (removelast p) fms void l v d1 -> loads d f l v
  | LoadDir d f p :                       (* see C64_directory_loaded_refuted *)
      resolve E V F d f = Some p -> is_dir E V F p = true -> loads d f [] void
  with sequence : pos -> list form -> V -> list E -> V -> pos -> Prop :=
  | SeqEnd d v : sequence d [] v [] v d
  | SeqForm d a r v0 l1 v1 d1 l2 v2 d2 :
      runs d a l1 v1 d1 -> sequence d1 r v1 l2 v2 d2 -> sequence d (FGood _ _ a :: r) v0 (l1 ++ l2) v2 d2.

  (** Programs that change the directory only to absolute paths. *)
  Fixpoint absolute_only (a : act) : Prop :=
    match a with
    | ARet _ _ _ | AExit _ _ => True
    | AEmit _ _ _ k => absolute_only k
    | APwd _ _ k => forall p, is_absolute p = true -> absolute_only (k p)
    | ACd _ _ p k => is_absolute p = true /\ forall b, absolute_only (k b)
    | ALoad _ _ _ h => absolute_only h
    | ANested _ _ _ k => forall b, absolute_only (k b)
    end.
  Definition form_absolute (x : form) : Prop := match x with FBad _ _ => True | FGood _ _ a => absolute_only a end.
  Definition all_absolute : Prop := forall p fms, contents E V F p = Some fms -> Forall form_absolute fms.
  (** No file begins with a form that is refused. *)
  Definition first_accepted : Prop := forall p r, contents E V F p <> Some (FBad _ _ :: r).

  Hypothesis T : tree E V F.
  Hypothesis A : all_absolute.
  Hypothesis B : first_accepted.

  (** The state of a process in directory [d]: the recorded path leads there. *)
  Definition good (s : st E) : Prop :=
    is_dir E V F (s_cwd E s) = true /\ is_absolute (s_rec E s) = true /\ names (s_rec E s) (s_cwd E s).
  Definition sound_load (inner : bool) (ld : str -> st E -> lres E V) : Prop :=
    forall f s, is_dir E V F (s_cwd E s) = true ->
    match ld f s with
    | LOk _ _ v s' => exists l, loads (s_cwd E s) f l v /\ s_log E s' = s_log E s ++ l /\ s_cwd E s' = s_cwd E s /\ s_rec E s' = render (s_cwd E s)
    | LErr _ _ s' => inner = true /\ s' = s /\ resolve E V F (s_cwd E s) f = None
    | _ => True
    end.
  Lemma names_render d : is_dir E V F d = true -> names (render d) d.
  Proof. intros H c. apply resolve_render; [exact T|]. now apply dir_exists. Qed.
  Lemma render_absolute d : is_absolute (render d) = true.
  Proof. destruct d; reflexivity. Qed.
  Lemma abs_resolve c d p q : is_absolute p = true -> resolve E V F c p = Some q -> resolve E V F d p = Some q.
  Proof. destruct p as [|x p]; [discriminate|]. cbn. intros ->. auto. Qed.
  Lemma good_render d l : is_dir E V F d = true -> good (St E d (render d) l).
  Proof. intros H. split; [exact H|]. split; [apply render_absolute|now apply names_render]. Qed.
  Lemma set_dir_ok p s v s' : set_current_dir E V F p s = LOk _ _ v s' -> dir_at (s_cwd E s) p (s_cwd E s') /\ s_rec E s' = p /\ s_log E s' = s_log E s.
  Proof.
    unfold set_current_dir. destruct (resolve E V F (s_cwd E s) p) as [d|] eqn:R; [|discriminate].
    destruct (is_dir E V F d) eqn:D; [|discriminate]. intros H. injection H as H1 <-. cbn. split; [split; assumption|auto].
  Qed.
  Lemma set_dir_bad p s s' : set_current_dir E V F p s = LErr _ _ s' -> s' = s /\ forall d, ~ dir_at (s_cwd E s) p d.
  Proof.
    unfold set_current_dir. destruct (resolve E V F (s_cwd E s) p) as [d|] eqn:R.
    - destruct (is_dir E V F d) eqn:D; [discriminate|]. intros H. injection H as <-. split; [reflexivity|]. intros d1 [H1 H2]. congruence.
    - intros H. injection H as <-. split; [reflexivity|]. intros d1 [H1 H2]. congruence.
  Qed.
  Lemma set_dir_cases p s : (exists s', set_current_dir E V F p s = LOk _ _ tt s') \/ set_current_dir E V F p s = LErr _ _ s.
  Proof.
    unfold set_current_dir. destruct (resolve E V F (s_cwd E s) p) as [d|]; [|auto]. destruct (is_dir E V F d); eauto.
  Qed.

  Lemma exec_sound inner ld ld1 : sound_load inner ld -> (forall f s, is_dir E V F (s_cwd E s) = true ->
      match ld1 f s with
      | LOk _ _ _ s' => exists l v, loads (s_cwd E s) f l v /\ s_log E s' = s_log E s ++ l /\ s_cwd E s' = s_cwd E s /\ s_rec E s' = render (s_cwd E s)
      | LErr _ _ s' => s' = s /\ resolve E V F (s_cwd E s) f = None
      | _ => True
      end) ->
    forall a s v s', absolute_only a -> good s -> exec E V F ld ld1 a s = LOk _ _ v s' ->
      inner = false -> exists l, runs (s_cwd E s) a l v (s_cwd E s') /\ s_log E s' = s_log E s ++ l /\ good s'.
  Proof.
    intros H1 H2. induction a as [v0| |e k IH|k IH|p k IH|f h IH|f k IH]; intros s v s' HA HG HE HI; cbn [exec] in HE.
    - injection HE as -> <-. exists []. rewrite app_nil_r. repeat split; try apply HG. constructor.
    - discriminate.
    - destruct (IH _ _ _ HA (conj (proj1 HG) (proj2 HG) : good (emit E e s)) HE HI) as (l & R & L & G).
      exists (e :: l). split; [now constructor|]. split; [|exact G]. rewrite L. cbn. now rewrite <- app_assoc.
    - destruct HG as (G1 & G2 & G3).
      destruct (IH _ _ _ _ (HA _ G2) (conj G1 (conj G2 G3)) HE HI) as (l & R & L & G).
      exists l. split; [|auto]. econstructor; eassumption.
    - destruct HA as [HA1 HA2]. destruct (set_dir_cases p s) as [[s1 Q]|Q]; rewrite Q in HE.
      + destruct (set_dir_ok _ _ _ _ Q) as (D1 & D2 & D3).
        assert (G : good s1). { split; [apply D1|]. rewrite D2. split; [exact HA1|]. intros c. eapply abs_resolve; [exact HA1|apply D1]. }
        destruct (IH _ _ _ _ (HA2 true) G HE HI) as (l & R & L & G'). exists l. split; [econstructor; eassumption|]. split; [|exact G'].
        now rewrite L, D3.
      + destruct (set_dir_bad _ _ _ Q) as (_ & D). destruct (IH _ _ _ _ (HA2 false) HG HE HI) as (l & R & L & G').
        exists l. split; [eapply RunCdNot; eassumption|auto].
    - specialize (H1 f s (proj1 HG)). destruct (ld f s) as [v1 s1|s1| | |] eqn:Q; try discriminate.
      + injection HE as -> <-. destruct H1 as (l & L1 & L2 & L3 & L4). exists l. rewrite L3. split; [now constructor|]. split; [exact L2|].
        destruct s1 as [c1 r1 g1]. cbn in *. subst. apply good_render. apply HG.
      + destruct H1 as [K _]. congruence.
    - specialize (H2 f s (proj1 HG)). destruct (ld1 f s) as [v1 s1|s1| | |] eqn:Q; try discriminate.
      + destruct H2 as (l & v2 & L1 & L2 & L3 & L4).
        assert (G : good s1). { destruct s1 as [c1 r1 g1]. cbn in *. subst. apply good_render. apply HG. }
        destruct (IH _ _ _ _ (HA true) G HE HI) as (l' & R & L & G'). exists (l ++ l'). rewrite L3 in R.
        split; [econstructor; eassumption|]. split; [|exact G']. rewrite L, L2. now rewrite <- app_assoc.
      + destruct H2 as [-> H2]. destruct (IH _ _ _ _ (HA false) HG HE HI) as (l & R & L & G').
        exists l. split; [eapply RunNestedNot; eassumption|auto].
  Qed.

  Lemma exec_no_err ld ld1 : forall a s s', exec E V F ld ld1 a s <> LErr _ _ s'.
  Proof.
    induction a as [v0| |e k IH|k IH|p k IH|f h IH|f k IH]; intros s s'; cbn [exec]; try discriminate; auto.
    - destruct (set_current_dir E V F p s); auto; discriminate.
    - destruct (ld f s); auto; discriminate.
    - destruct (ld1 f s); auto; discriminate.
  Qed.
  Lemma forms_sound run : (forall a s v s', absolute_only a -> good s -> run a s = LOk _ _ v s' ->
      exists l, runs (s_cwd E s) a l v (s_cwd E s') /\ s_log E s' = s_log E s ++ l /\ good s') ->
    forall fms v s v' s', Forall form_absolute fms -> good s -> forms_loop E V false run fms v s = LOk _ _ v' s' ->
    exists l, sequence (s_cwd E s) fms v l v' (s_cwd E s') /\ s_log E s' = s_log E s ++ l /\ good s'.
  Proof.
    intros H. induction fms as [|x r IH]; intros v s v' s' HF HG HE; cbn in HE.
    - injection HE as -> <-. exists []. rewrite app_nil_r. repeat split; try apply HG. constructor.
    - inversion HF as [|? ? F1 F2]; subst. destruct x as [|a]; [discriminate|].
      destruct (run a s) as [v1 s1|s1| | |] eqn:Q; try discriminate.
      destruct (H _ _ _ _ F1 HG Q) as (l1 & R1 & L1 & G1). destruct (IH _ _ _ _ F2 G1 HE) as (l2 & R2 & L2 & G2).
      exists (l1 ++ l2). split; [econstructor; eassumption|]. split; [|exact G2]. rewrite L2, L1. now rewrite <- app_assoc.
  Qed.
  Lemma open_spec d f : is_dir E V F d = true ->
    match open E V F d f with
    | Some (p, fms) => resolve E V F d f = Some p /\ exists_at E V F p = true /\
        (contents E V F p = Some fms \/ (is_dir E V F p = true /\ fms = []))
    | None => resolve E V F d f = None
    end.
  Proof.
    intros D. unfold open. destruct (resolve E V F d f) as [p|] eqn:R; [|reflexivity].
    pose proof (resolve_exists E V F T _ _ _ D R) as X. unfold exists_at, is_file in X.
    destruct (contents E V F p) as [l|] eqn:C.
    - split; [reflexivity|]. split; [unfold exists_at, is_file; now rewrite C|auto].
    - destruct (is_dir E V F p) eqn:D1; [|discriminate]. split; [reflexivity|]. split; [now apply dir_exists|auto].
  Qed.
  Lemma load_sound : forall n inner, sound_load inner (load_file E V F void n inner).
  Proof.
    induction n as [|n IH]; intros inner f s D; [exact Logic.I|]. cbn [load_file]. unfold load_with.
    pose proof (open_spec _ f D) as O. destruct (open E V F (s_cwd E s) f) as [[p fms]|].
    2:{ destruct inner; cbn; auto. }
    destruct O as (R & X & C). rewrite (file_dir_render E V F T) by assumption.
    pose proof (parent_dir E V F T p X) as PD.
    assert (Q : set_current_dir E V F (join (removelast p) ++ [slash]) s
                = LOk _ _ tt (St E (removelast p) (join (removelast p) ++ [slash]) (s_log E s))).
    { unfold set_current_dir. rewrite resolve_dir by assumption. now rewrite PD. }
    rewrite Q. set (s1 := St E (removelast p) (join (removelast p) ++ [slash]) (s_log E s)).
    assert (G1 : good s1).
    { split; [exact PD|]. split; [cbn; destruct (removelast p); reflexivity|]. intros c. now apply resolve_dir. }
    set (run := exec E V F (load_file E V F void n inner) (fun f s => forget E V (load_file E V F void n true f s))).
    assert (Back : forall s2, set_current_dir E V F (render (s_cwd E s)) s2 = LOk _ _ tt (St E (s_cwd E s) (render (s_cwd E s)) (s_log E s2))).
    { intros s2. unfold set_current_dir. rewrite resolve_render; [|exact T|now apply dir_exists]. now rewrite D. }
    assert (HF : Forall form_absolute fms).
    { destruct C as [C|[_ ->]]; [eapply A; eassumption|constructor]. }
    destruct inner.
    - (* from an inner frame *)
      destruct fms as [|x r].
      + cbn [forms_loop]. rewrite Back. exists []. rewrite app_nil_r. split; [|auto].
        destruct C as [C|[C _]]; [|eapply LoadDir; eassumption]. eapply LoadFile; [eassumption|eassumption|constructor].
      + destruct C as [C|[_ C]]; [|discriminate]. destruct x as [|a]; [exfalso; eapply B; exact C|].
        cbn [forms_loop]. destruct (run a s1) as [v1 s2|s2| | |] eqn:K; cbn [after_inner]; auto.
        exfalso. unfold run in K. eapply exec_no_err; exact K.
    - assert (HS : forall v' s2, forms_loop E V false run fms void s1 = LOk _ _ v' s2 ->
          exists l, sequence (s_cwd E s1) fms void l v' (s_cwd E s2) /\ s_log E s2 = s_log E s1 ++ l /\ good s2).
      { intros v' s2. apply (forms_sound run); [|exact HF|exact G1].
        intros a s0 v0 s0' Ha Hg He. eapply (exec_sound false); [apply IH| |exact Ha|exact Hg|exact He|reflexivity].
        intros f0 s3 D3. pose proof (IH true f0 s3 D3) as K. cbn beta. destruct (load_file E V F void n true f0 s3) as [v3 s4|s4| | |]; cbn in *; auto.
        - destruct K as (l & K). exists l, v3. exact K.
        - apply K. }
      destruct (forms_loop E V false run fms void s1) as [v2 s2|s2| | |] eqn:K; auto.
      + rewrite Back. destruct (HS _ _ eq_refl) as (l & S1 & S2 & S3). exists l. split; [|cbn; auto].
        destruct C as [C|[C ->]]; [eapply LoadFile; eassumption|].
        inversion S1; subst. eapply LoadDir; eassumption.
      + exfalso. clear -K. revert K. generalize void s1. induction fms as [|x r IHf]; intros v0 s0 K; cbn in K; [discriminate|].
        destruct x as [|a]; [discriminate|]. destruct (run a s0) as [v1 s3|s3| | |] eqn:Q; try discriminate; [eauto|].
        unfold run in Q. eapply exec_no_err; exact Q.
  Qed.
End Spec.

(** * Completeness, for programs that do not look at the name of the directory and load
    only as the last thing of a form *)
Section Complete.
  Variables E V : Type.
  Notation act := (act E V).
  Notation form := (form E V).
  Variable F : fs E V.
  Variable void : V.
  Hypothesis T : tree E V F.
  Fixpoint plain (a : act) : Prop :=
    match a with
    | ARet _ _ _ | AExit _ _ => True
    | AEmit _ _ _ k => plain k
    | APwd _ _ _ | ANested _ _ _ _ => False
    | ACd _ _ _ k => forall b, plain (k b)
    | ALoad _ _ _ h => plain h
    end.
  Definition form_plain (x : form) : Prop := match x with FBad _ _ => True | FGood _ _ a => plain a end.
  Definition all_plain : Prop := forall p fms, contents E V F p = Some fms -> Forall form_plain fms.
  Hypothesis P : all_plain.
  Notation run n := (exec E V F (load_file E V F void n false) (fun f s => forget E V (load_file E V F void n true f s))).

  Lemma exec_mono (ld ld' : str -> st E -> lres E V) ld1 ld1' :
    (forall f s v s', ld f s = LOk _ _ v s' -> ld' f s = LOk _ _ v s') ->
    (forall f s s', ld f s <> LErr _ _ s') ->
    forall a s v s', plain a -> exec E V F ld ld1 a s = LOk _ _ v s' -> exec E V F ld' ld1' a s = LOk _ _ v s'.
  Proof.
    intros H N. induction a as [v0| |e k IH|k IH|p k IH|f h IH|f k IH]; intros s v s' Hp HE; cbn [exec] in *; try contradiction; auto.
    - destruct (set_current_dir E V F p s); try discriminate; eauto.
    - destruct (ld f s) as [v1 s1|s1| | |] eqn:Q; try discriminate; [rewrite (H _ _ _ _ Q); exact HE|exfalso; eapply N; exact Q].
  Qed.
  Lemma load_no_err n f s s' : load_file E V F void n false f s <> LErr _ _ s'.
  Proof.
    destruct n as [|n]; [discriminate|]. cbn [load_file]. unfold load_with.
    destruct (open E V F (s_cwd E s) f) as [[p fms]|]; [|discriminate]. destruct (get_file_dir (render p)) as [dd|]; [|discriminate].
    destruct (set_current_dir E V F dd s) as [u s1|s1| | |]; try discriminate.
    match goal with |- match ?x with _ => _ end <> _ => destruct x as [v2 s2|s2| | |] eqn:K end; try discriminate.
    - destruct (set_current_dir E V F (render (s_cwd E s)) s2); discriminate.
    - exfalso. revert K. generalize void at 3. generalize s1. induction fms as [|x r IHf]; intros s3 v0 K; cbn in K; [discriminate|].
      destruct x as [|a]; [discriminate|]. match type of K with match ?x with _ => _ end = _ => destruct x as [v1 s4|s4| | |] eqn:Q end; try discriminate; [eauto|].
      eapply exec_no_err; exact Q.
  Qed.
  Lemma load_mono : forall n f s v s', load_file E V F void n false f s = LOk _ _ v s' -> load_file E V F void (S n) false f s = LOk _ _ v s'.
  Proof.
    induction n as [|n IH]; intros f s v s' H; [discriminate|].
    remember (S n) as m eqn:M. rewrite M in H. cbn [load_file] in *. unfold load_with in *.
    destruct (open E V F (s_cwd E s) f) as [[p fms]|] eqn:O; [|discriminate]. destruct (get_file_dir (render p)) as [dd|]; [|discriminate].
    destruct (set_current_dir E V F dd s) as [u s1|s1| | |]; try discriminate.
    assert (HP : Forall form_plain fms).
    { unfold open in O. destruct (resolve E V F (s_cwd E s) f) as [q|]; [|discriminate]. destruct (contents E V F q) eqn:C.
      - injection O as <- <-. eapply P; eassumption.
      - destruct (is_dir E V F q); [injection O as <- <-; constructor|discriminate]. }
    match type of H with match ?x with _ => _ end = _ => destruct x as [v2 s2|s2| | |] eqn:K end; try discriminate.
    assert (K2 : forms_loop E V false (run m) fms void s1 = LOk _ _ v2 s2).
    { clear H O. revert K. generalize void at 3 6. revert s1. induction HP as [|x r Hx Hr IHf]; intros s1 v0 K; cbn [forms_loop] in *; [exact K|].
      destruct x as [|a]; [discriminate|]. destruct (run n a s1) as [v1 s4|s4| | |] eqn:Q; try discriminate.
      assert (Q' : run m a s1 = LOk _ _ v1 s4).
      { eapply exec_mono; [| |exact Hx|exact Q]; [subst m; exact IH|intros; apply load_no_err]. }
      rewrite Q'. apply IHf. exact K. }
    rewrite K2. exact H.
  Qed.
  Lemma load_more n k f s v s' : load_file E V F void n false f s = LOk _ _ v s' -> load_file E V F void (k + n) false f s = LOk _ _ v s'.
  Proof. intros H. induction k as [|k IH]; [exact H|]. now apply load_mono. Qed.
  Lemma run_more n k a s v s' : plain a -> run n a s = LOk _ _ v s' -> run (k + n) a s = LOk _ _ v s'.
  Proof. intros Hp. apply exec_mono; [|intros; apply load_no_err|exact Hp]. intros. now apply load_more. Qed.
  Lemma loop_more n k : forall fms v s v' s', Forall form_plain fms -> forms_loop E V false (run n) fms v s = LOk _ _ v' s' ->
    forms_loop E V false (run (k + n)) fms v s = LOk _ _ v' s'.
  Proof.
    induction fms as [|x r IH]; intros v s v' s' HP H; cbn [forms_loop] in *; [exact H|]. inversion HP; subst.
    destruct x as [|a]; [discriminate|]. destruct (run n a s) as [v1 s1|s1| | |] eqn:Q; try discriminate.
    rewrite (run_more n k a s v1 s1); auto.
  Qed.

  Scheme runs_mind := Induction for runs Sort Prop
    with loads_mind := Induction for loads Sort Prop
    with seq_mind := Induction for sequence Sort Prop.

  Lemma complete : forall d f l v, loads E V F void d f l v ->
    forall s, s_cwd E s = d -> is_dir E V F d = true ->
    exists n s', load_file E V F void n false f s = LOk _ _ v s' /\ s_log E s' = s_log E s ++ l.
  Proof.
    apply (loads_mind E V F void
      (fun d a l v d1 _ => plain a -> forall s, s_cwd E s = d -> is_dir E V F d = true ->
         exists n s', run n a s = LOk _ _ v s' /\ s_log E s' = s_log E s ++ l /\ s_cwd E s' = d1 /\ is_dir E V F d1 = true)
      (fun d f l v _ => forall s, s_cwd E s = d -> is_dir E V F d = true ->
         exists n s', load_file E V F void n false f s = LOk _ _ v s' /\ s_log E s' = s_log E s ++ l)
      (fun d fms v0 l v d1 _ => Forall form_plain fms -> forall s, s_cwd E s = d -> is_dir E V F d = true ->
         exists n s', forms_loop E V false (run n) fms v0 s = LOk _ _ v s' /\ s_log E s' = s_log E s ++ l /\ s_cwd E s' = d1)).
    - intros d v _ s Hs D. exists 0, s. rewrite app_nil_r. auto.
    - intros d e k l v d1 _ IH Hp s Hs D. destruct (IH Hp (emit E e s) Hs D) as (n & s' & H1 & H2 & H3 & H4). exists n, s'. cbn [exec].
      split; [exact H1|]. split; [|auto]. rewrite H2. cbn. now rewrite <- app_assoc.
    - intros d p k l v d1 _ _ _ [].
    - intros d p k d1 l v d2 [D1 D2] _ IH Hp s Hs D.
      destruct (IH (Hp true) (St E d1 p (s_log E s)) eq_refl D2) as (n & s' & H1 & H2 & H3 & H4). exists n, s'. cbn [exec].
      unfold set_current_dir. rewrite Hs, D1, D2. auto.
    - intros d p k l v d2 N _ IH Hp s Hs D. destruct (IH (Hp false) s Hs D) as (n & s' & H1 & H2 & H3 & H4). exists n, s'. cbn [exec].
      unfold set_current_dir. rewrite Hs. destruct (resolve E V F d p) as [d1|] eqn:R; [|auto].
      destruct (is_dir E V F d1) eqn:D1; [|auto]. exfalso. exact (N d1 (conj R D1)).
    - intros d f h l v _ IH Hp s Hs D. destruct (IH s Hs D) as (n & s' & H1 & H2). exists n, s'. cbn [exec]. rewrite H1.
      split; [reflexivity|]. split; [exact H2|]. split; [|exact D].
      destruct n as [|n]; [discriminate|]. cbn [load_file] in H1. unfold load_with in H1.
      destruct (open E V F (s_cwd E s) f) as [[p fms]|]; [|discriminate]. destruct (get_file_dir (render p)) as [dd|]; [|discriminate].
      destruct (set_current_dir E V F dd s) as [u s1|s1| | |]; try discriminate.
      match type of H1 with match ?x with _ => _ end = _ => destruct x as [v2 s2|s2| | |] end; try discriminate.
      unfold set_current_dir in H1. rewrite resolve_render in H1; [|exact T|apply dir_exists; rewrite Hs; exact D].
      rewrite Hs, D in H1. injection H1 as _ <-. reflexivity.
    - intros d f k l1 v1 l2 v2 d2 _ _ _ _ [].
    - intros d f k l v d2 _ _ _ [].
    - intros d f p fms l v d1 R C _ IH s Hs D.
      assert (X : exists_at E V F p = true) by (unfold exists_at, is_file; rewrite C; apply orb_true_r).
      pose proof (parent_dir E V F T p X) as PD.
      destruct (IH (P _ _ C) (St E (removelast p) (join (removelast p) ++ [slash]) (s_log E s)) eq_refl PD) as (n & s' & H1 & H2 & H3).
      exists (S n), (St E d (render d) (s_log E s')). cbn [load_file]. unfold load_with, open. rewrite Hs, R, C.
      rewrite (file_dir_render E V F T) by assumption. unfold set_current_dir at 1. rewrite resolve_dir by assumption. rewrite PD, H1.
      unfold set_current_dir. rewrite resolve_render; [|exact T|now apply dir_exists]. rewrite D. auto.
    - intros d f p R D1 s Hs D. exists 1, (St E d (render d) (s_log E s)). cbn [load_file]. unfold load_with, open. rewrite Hs, R, (t_excl E V F T _ D1), D1.
      pose proof (parent_dir E V F T p (dir_exists _ _ _ _ D1)) as PD.
      rewrite (file_dir_render E V F T) by (now apply dir_exists). unfold set_current_dir at 1. rewrite resolve_dir by assumption. rewrite PD. cbn [forms_loop].
      unfold set_current_dir. rewrite resolve_render; [|exact T|now apply dir_exists]. rewrite D, app_nil_r. auto.
    - intros d v _ s Hs D. exists 0, s. rewrite app_nil_r. auto.
    - intros d a r v0 l1 v1 d1 l2 v2 d2 _ IH1 _ IH2 HP s Hs D. inversion HP as [|? ? P1 P2]; subst.
      destruct (IH1 P1 s eq_refl D) as (n1 & s1 & H1 & H2 & H3 & H4). destruct (IH2 P2 s1 H3 H4) as (n2 & s2 & K1 & K2 & K3).
      exists (n1 + n2), s2. cbn [forms_loop]. assert (Q : run (n1 + n2) a s = LOk _ _ v1 s1) by (rewrite Nat.add_comm; now apply run_more). rewrite Q.
      split; [now apply loop_more|]. split; [|exact K3]. rewrite K2, H2. now rewrite <- app_assoc.
  Qed.
End Complete.

(** * Theorems *)
(** Loading a file evaluates its forms in order, starting in the directory of the file, and
    leaves the process in the directory in which it was; (current-directory) then answers the
    absolute path of that directory.  For programs that change the directory to absolute
    paths, and without files whose first form is refused. *)
Theorem C64_load_partial :
  forall E V (F : fs E V) void, tree E V F -> all_absolute E V F -> first_accepted E V F ->
  forall n f s v s', is_dir E V F (s_cwd E s) = true -> load_file E V F void n false f s = LOk _ _ v s' ->
  exists l, loads E V F void (s_cwd E s) f l v /\ s_log E s' = s_log E s ++ l
    /\ s_cwd E s' = s_cwd E s /\ s_rec E s' = render (s_cwd E s).
Proof.
  intros E V F void T A B n f s v s' D H. pose proof (load_sound E V F void T A B n false f s D) as K. rewrite H in K. exact K.
Qed.

(** What loading means is also what happens, for programs that do not look at the name of the
    directory and that call load only as the last thing of a form. *)
Theorem C64_load_complete_partial :
  forall E V (F : fs E V) void, tree E V F -> all_plain E V F ->
  forall d f l v, loads E V F void d f l v ->
  forall s, s_cwd E s = d -> is_dir E V F d = true ->
  exists n s', load_file E V F void n false f s = LOk _ _ v s' /\ s_log E s' = s_log E s ++ l.
Proof. intros E V F void T P d f l v. exact (complete E V F void T P d f l v). Qed.

(** More steps do not change the result. *)
Theorem C64_result_unique :
  forall E V (F : fs E V) void, all_plain E V F ->
  forall n m f s v s' v2 s2, load_file E V F void n false f s = LOk _ _ v s' -> load_file E V F void m false f s = LOk _ _ v2 s2 ->
  v = v2 /\ s' = s2.
Proof.
  intros E V F void P n m f s v s' v2 s2 H1 H2.
  apply (load_more E V F void P n m) in H1. apply (load_more E V F void P m n) in H2. rewrite Nat.add_comm in H2. rewrite H1 in H2.
  injection H2 as -> ->. auto.
Qed.

(** A file that cannot be found ends the process (the error is signalled outside of any call,
    C50); nothing is evaluated. *)
Theorem C64_missing_file :
  forall E V (F : fs E V) void, tree E V F ->
  forall n f s, is_dir E V F (s_cwd E s) = true -> resolve E V F (s_cwd E s) f = None ->
  load_file E V F void (S n) false f s = LExit _ _ /\ load_file E V F void (S n) true f s = LErr _ _ s.
Proof.
  intros E V F void T n f s D R. cbn [load_file]. unfold load_with.
  pose proof (open_spec E V F T _ f D) as O. destruct (open E V F (s_cwd E s) f) as [[p fms]|]; [destruct O; congruence|]. split; reflexivity.
Qed.

(** The directory of a file: get_file_dir of its absolute path is the path of its directory. *)
Theorem C64_file_directory :
  forall E V (F : fs E V), tree E V F ->
  forall p c, exists_at E V F p = true ->
  exists d, get_file_dir (render p) = Some d /\ is_absolute d = true
    /\ resolve E V F c d = Some (removelast p) /\ is_dir E V F (removelast p) = true.
Proof.
  intros E V F T p c X. exists (join (removelast p) ++ [slash]). split; [now apply (file_dir_render E V F T)|].
  pose proof (parent_dir E V F T p X) as PD. split; [destruct (removelast p); reflexivity|]. split; [now apply resolve_dir|exact PD].
Qed.

(** (current-directory p) moves the process to the directory that p means, or changes
    nothing. *)
Theorem C64_change_directory :
  forall E V (F : fs E V) p s,
  (exists d, dir_at E V F (s_cwd E s) p d /\ set_current_dir E V F p s = LOk _ _ tt (St E d p (s_log E s)))
  \/ ((forall d, ~ dir_at E V F (s_cwd E s) p d) /\ set_current_dir E V F p s = LErr _ _ s).
Proof.
  intros E V F p s. destruct (set_dir_cases E V F p s) as [[s' Q]|Q].
  - left. destruct (set_dir_ok E V F _ _ _ _ Q) as (D1 & D2 & D3). exists (s_cwd E s'). split; [exact D1|].
    rewrite Q. destruct s'; cbn in *; subst. reflexivity.
  - right. split; [|exact Q]. apply (set_dir_bad E V F _ _ _ Q).
Qed.
(** With an absolute path, what (current-directory) answers leads back to the directory. *)
Theorem C64_reported_directory_partial :
  forall E V (F : fs E V) p s s', is_absolute p = true -> set_current_dir E V F p s = LOk _ _ tt s' ->
  forall s2, set_current_dir E V F (s_rec E s') s2 = LOk _ _ tt (St E (s_cwd E s') (s_rec E s') (s_log E s2)).
Proof.
  intros E V F p s s' A H s2. destruct (set_dir_ok E V F _ _ _ _ H) as ([D1 D2] & D3 & D4).
  unfold set_current_dir. rewrite D3. rewrite (abs_resolve E V F (s_cwd E s) _ _ _ A D1). now rewrite D2.
Qed.

(** Evaluation started by load inside a call (eval_istream inside eval_istream): for every
    code, every thread that is not at the bottom of its stack, and every continuation of the
    run, with the handlers of errors, the inner evaluation never comes to an end. *)
Theorem C64_inner_evaluation :
  forall prim p_set p_get p_cset describe c t,
  0 < m_sfp (x_m t) ->
  forall t' r t2, xreaches prim p_set p_get p_cset describe (Thr (inner_start c (x_m t)) (x_handler t) (x_chandler t)) t' ->
  xstep prim p_set p_get p_cset describe t' <> XDone r t2.
Proof.
  intros prim p_set p_get p_cset describe c t H t' r t2 R Q.
  assert (K : inv (m_sfp (x_m t)) (m_cc (x_m t)) (x_m t')).
  { eapply xreaches_inv; [exact H|exact R|]. cbn. apply inner_inv. }
  pose proof (xstep_inv prim _ _ H p_set p_get p_cset describe _ K) as J. rewrite Q in J. exact J.
Qed.
(** At the bottom of the stack it is an evaluation like any other. *)
Theorem C64_bottom_evaluation :
  forall c m, m_sfp m = 0 -> m_cc m = [] -> inner_start c m = start c (m_stk m) (m_env m) (m_vc m) (m_vals m) (m_data m).
Proof. intros c m H1 H2. unfold inner_start, start. now rewrite H1, H2. Qed.
(** When the code comes to its end, the next instruction is fetched through NULL. *)
Theorem C64_inner_evaluation_refuted :
  forall prim m v ar rel, 0 < m_sfp m ->
  ends prim (inner_start (Code [Iliteral v; Iret] ar rel) m) Undef.
Proof.
  intros prim m v ar rel H. eexists. split; [eapply ReStep; [reflexivity|apply ReRefl]|]. split; [|exact Logic.I].
  unfold step. cbn. destruct (m_sfp m) as [|k]; [lia|]. cbn. unfold upd_stk. rewrite Nat.eqb_refl. reflexivity.
Qed.
(** So a call of load inside another expression returns only if the file has no forms. *)
Theorem C64_nested_load_partial :
  forall E V (F : fs E V) void n f s v s', tree E V F -> is_dir E V F (s_cwd E s) = true ->
  load_file E V F void n true f s = LOk _ _ v s' ->
  exists p, resolve E V F (s_cwd E s) f = Some p /\ (contents E V F p = Some [] \/ is_dir E V F p = true) /\ v = void.
Proof.
  intros E V F void n f s v s' T D H. destruct n as [|n]; [discriminate|]. cbn [load_file] in H. unfold load_with in H.
  pose proof (open_spec E V F T _ f D) as O. destruct (open E V F (s_cwd E s) f) as [[p fms]|]; [|discriminate].
  destruct O as (R & X & C). exists p. split; [exact R|].
  destruct (get_file_dir (render p)); [|discriminate]. destruct (set_current_dir E V F _ s) as [u s1|s1| | |]; try discriminate.
  destruct fms as [|x r].
  - cbn in H. split; [destruct C as [C|[C _]]; auto|]. destruct (set_current_dir E V F (render (s_cwd E s)) s1); try discriminate. now injection H as <- <-.
  - cbn [forms_loop] in H. destruct x as [|a]; [discriminate|].
    match type of H with context [after_inner E V ?x] => destruct x end; discriminate.
Qed.

(** * Examples *)
Definition s2 (s : string) : str := list_ascii_of_string s.
Definition pos_eqb (a b : pos) : bool := if list_eq_dec (list_eq_dec ascii_dec) a b then true else false.
Definition file_of {A} (l : list (pos * A)) (p : pos) : option A := option_map snd (find (fun x => pos_eqb p (fst x)) l).
Definition fs_of (dirs : list pos) (files : list (pos * list (form nat nat))) : fs nat nat :=
  FS nat nat (fun p => existsb (pos_eqb p) dirs) (file_of files).
Definition a_dir : pos := [s2 "a"]. Definition lib_dir : pos := [s2 "a"; s2 "lib"].
(** /a/main.min loads lib/x.min, which loads y.min (in its own directory); /a/main.min then
    shows the directory and loads x.min by an absolute path. *)
Definition ex_files : list (pos * list (form nat nat)) :=
  [(a_dir ++ [s2 "main.min"],
     [FGood _ _ (AEmit _ _ 1 (ALoad _ _ (s2 "lib/x.min") (AExit _ _)));
      FGood _ _ (APwd _ _ (fun p => AEmit _ _ (List.length p) (ARet _ _ 7)));
      FGood _ _ (ACd _ _ (s2 "/a/lib") (fun b => AEmit _ _ (if b then 20 else 30) (ALoad _ _ (s2 "../lib/./y.min") (AExit _ _))))]);
   (lib_dir ++ [s2 "x.min"], [FGood _ _ (AEmit _ _ 2 (ARet _ _ 2)); FGood _ _ (ALoad _ _ (s2 "y.min") (AExit _ _))]);
   (lib_dir ++ [s2 "y.min"], [FGood _ _ (AEmit _ _ 3 (ARet _ _ 5))]);
   (lib_dir ++ [s2 "bad.min"], [FGood _ _ (ARet _ _ 0); FBad _ _])].
Definition ex_fs : fs nat nat := fs_of [[]; a_dir; lib_dir] ex_files.
Lemma pos_eqb_eq a b : pos_eqb a b = true -> a = b.
Proof. unfold pos_eqb. destruct (list_eq_dec _ a b); congruence. Qed.
Lemma good_name_dec n : (negb (name_eqb n []) && negb (name_eqb n dot) && negb (name_eqb n dotdot) && forallb (fun c => negb (Ascii.eqb c slash)) n)%bool = true -> good_name n.
Proof.
  rewrite !andb_true_iff, !negb_true_iff. intros [[[H1 H2] H3] H4].
  split; [intros ->; discriminate|].
  split; [intros ->; discriminate|].
  split; [intros ->; discriminate|].
  intros K. rewrite forallb_forall in H4. apply H4 in K. now rewrite Ascii.eqb_refl in K.
Qed.
(** A finite description is a tree if every listed position has a listed parent. *)
Lemma fs_of_tree dirs files :
  existsb (pos_eqb []) dirs = true ->
  forallb (fun p => match p with [] => true | _ =>
      existsb (pos_eqb (removelast p)) dirs
      && (negb (name_eqb (last p []) []) && negb (name_eqb (last p []) dot) && negb (name_eqb (last p []) dotdot)
          && forallb (fun c => negb (Ascii.eqb c slash)) (last p [])) end) (dirs ++ map fst files) = true ->
  forallb (fun p => match file_of files p with None => true | _ => false end) dirs = true ->
  tree nat nat (fs_of dirs files).
Proof.
  intros H1 H2 H3. split.
  - exact H1.
  - intros p n H. rewrite forallb_forall in H2.
    assert (K : In (p ++ [n]) (dirs ++ map fst files)).
    { apply in_or_app. unfold exists_at, is_file in H. cbn in H. apply orb_true_iff in H. destruct H as [H|H].
      - left. apply existsb_exists in H. destruct H as (x & I1 & I2). apply pos_eqb_eq in I2. now subst.
      - right. unfold file_of in H. destruct (find _ files) as [[q l]|] eqn:Q; [|discriminate].
        apply find_some in Q. destruct Q as [I1 I2]. cbn in I2. apply pos_eqb_eq in I2. subst. apply in_map_iff. exists (p ++ [n], l). auto. }
    apply H2 in K. rewrite removelast_last, last_last in K. destruct (p ++ [n]) eqn:Z; [destruct p; discriminate|].
    apply andb_true_iff in K. destruct K as [K1 K2]. split; [exact K1|now apply good_name_dec].
  - intros p H. cbn in H. apply existsb_exists in H. destruct H as (x & I1 & I2). apply pos_eqb_eq in I2. subst x.
    rewrite forallb_forall in H3. apply H3 in I1. cbn. destruct (file_of files p); [discriminate|reflexivity].
Qed.
Example C64_ex_tree : tree nat nat ex_fs.
Proof. apply fs_of_tree; vm_compute; reflexivity. Qed.
Definition root_state : st nat := St nat [] (s2 "/") [].
Example C64_ex_load : load_file nat nat ex_fs 0 5 false (s2 "a/main.min") root_state
  = LOk _ _ 5 (St nat [] (s2 "/") [1; 2; 3; 2; 20; 3]).
Proof. vm_compute. reflexivity. Qed.
Example C64_ex_hypotheses : all_absolute nat nat ex_fs /\ first_accepted nat nat ex_fs.
Proof.
  split.
  - intros p fms H. cbn in H. unfold file_of in H. destruct (find _ ex_files) as [[q l]|] eqn:Q; [|discriminate].
    cbn in H. injection H as <-. apply find_some in Q. destruct Q as [I1 _].
    cbn in I1. destruct I1 as [I1|[I1|[I1|[I1|[]]]]]; injection I1 as <- <-; repeat constructor; cbn; auto.
  - intros p r H. cbn in H. unfold file_of in H. destruct (find _ ex_files) as [[q l]|] eqn:Q; [|discriminate].
    cbn in H. injection H as H. apply find_some in Q. destruct Q as [I1 _].
    cbn in I1. destruct I1 as [I1|[I1|[I1|[I1|[]]]]]; injection I1 as <- <-; discriminate.
Qed.
Example C64_ex_plain : all_plain nat nat (fs_of [[]; a_dir; lib_dir] (tl ex_files)).
Proof.
  intros p fms H. change (file_of (tl ex_files) p = Some fms) in H. unfold file_of in H. destruct (find _ (tl ex_files)) as [[q l]|] eqn:Q; [|discriminate].
  cbn in H. injection H as <-. apply find_some in Q. destruct Q as [I1 _].
  cbn in I1. destruct I1 as [I1|[I1|[I1|[]]]]; injection I1 as <- <-; repeat constructor; cbn; auto.
Qed.
Example C64_ex_missing : load_file nat nat ex_fs 0 5 false (s2 "a/none.min") root_state = LExit _ _
  /\ load_file nat nat ex_fs 0 5 false (s2 "/a/lib/bad.min") root_state = LExit _ _.
Proof. vm_compute. auto. Qed.

(** * What does not hold *)
(** A call of load whose value is used is undefined as soon as the file has a form. *)
Theorem C64_nested_load_refuted :
  tree nat nat ex_fs /\
  exec nat nat ex_fs (load_file nat nat ex_fs 0 9 false) (fun f s => forget nat nat (load_file nat nat ex_fs 0 9 true f s))
    (ANested _ _ (s2 "/a/lib/y.min") (fun _ => ARet _ _ 1)) root_state = LUndef _ _.
Proof. split; [exact C64_ex_tree|vm_compute; reflexivity]. Qed.
(** A directory is loaded as if it were a file without forms. *)
Theorem C64_directory_loaded_refuted :
  load_file nat nat ex_fs 9 5 false (s2 "/a/lib") root_state = LOk _ _ 9 root_state.
Proof. vm_compute. reflexivity. Qed.
(** After a change to a relative directory, the answer of (current-directory) leads nowhere. *)
Theorem C64_reported_directory_refuted :
  exec nat nat ex_fs (load_file nat nat ex_fs 0 9 false) (fun f s => forget nat nat (load_file nat nat ex_fs 0 9 true f s))
    (ACd _ _ (s2 "a") (fun _ => APwd _ _ (fun p => ACd _ _ p (fun b => ARet _ _ (if b then 1 else 0))))) root_state
  = LOk _ _ 0 (St nat a_dir (s2 "a") []).
Proof. vm_compute. reflexivity. Qed.
(** When the first form of a file is refused and the error handled, the process stays in the
    directory of the file. *)
Definition bad_fs : fs nat nat := fs_of [[]; a_dir] [(a_dir ++ [s2 "bad.min"], [FBad _ _])].
Theorem C64_directory_not_restored_refuted :
  tree nat nat bad_fs /\
  exec nat nat bad_fs (load_file nat nat bad_fs 0 9 false) (fun f s => forget nat nat (load_file nat nat bad_fs 0 9 true f s))
    (ANested _ _ (s2 "/a/bad.min") (fun b => ARet _ _ (if b then 1 else 0))) root_state = LOk _ _ 0 (St nat a_dir (s2 "/a/") []).
Proof. split; [apply fs_of_tree; vm_compute; reflexivity|vm_compute; reflexivity]. Qed.

Print Assumptions C64_load_partial.
Print Assumptions C64_load_complete_partial.
Print Assumptions C64_result_unique.
Print Assumptions C64_missing_file.
Print Assumptions C64_file_directory.
Print Assumptions C64_change_directory.
Print Assumptions C64_reported_directory_partial.
Print Assumptions C64_inner_evaluation.
Print Assumptions C64_bottom_evaluation.
Print Assumptions C64_inner_evaluation_refuted.
Print Assumptions C64_nested_load_partial.
Print Assumptions C64_nested_load_refuted.
Print Assumptions C64_directory_loaded_refuted.
Print Assumptions C64_reported_directory_refuted.
Print Assumptions C64_directory_not_restored_refuted.
