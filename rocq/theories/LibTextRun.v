(** Running the texts of LibText.v. *)
From Coq Require Import ZArith NArith Bool Ascii String List Arith Lia.
From Verif Require Import Base Heap HeapM Ast Sem Check Lists LibText LibTextProofs.
Import ListNotations.
Local Open Scope list_scope.

(** What is known of a store carries over to one that has grown. *)
Ltac carry G :=
  match type of G with
  | grows ?a ?b =>
      repeat match goal with
             | H : cell_is a _ _ |- _ => apply (grows_cell _ _ _ _ G) in H
             | H : list_at (heap_of a) _ _ |- _ => apply (grows_list _ _ _ _ G) in H
             | H : reach (heap_of a) _ _ _ |- _ => apply (grows_reach _ _ _ _ _ G) in H
             | H : no_pair (heap_of a) _ |- _ => apply (grows_no_pair _ _ _ G) in H
             | H : odd_tail (heap_of a) _ |- _ => apply (grows_odd _ _ _ G) in H
             | H : pair_at (heap_of a) _ = Some _ |- _ => apply (grows_pair _ _ _ _ _ G) in H
             | H : proc_at _ (procs_of a) = Some _ |- _ => apply (grows_proc _ _ _ _ G) in H
             | H : later ?n ?z a |- _ => apply (fun L => later_trans _ _ _ _ L (grows_later n _ _ G)) in H
             | H : good a |- _ => apply (grows_good _ _ G) in H
             | H : grows ?z a |- _ => apply (fun K => grows_trans _ _ _ K G) in H
             end
  end.
(** One step of a run. *)
Ltac lib_step nm :=
  match goal with
  | |- run _ _ _ _ (EConst _) _ => apply run_const; cbv beta iota
  | |- run _ _ _ _ (EVar _) _ => eapply run_local; [reflexivity|eassumption|cbv beta iota]
  | |- run _ _ _ _ (EIf _ _ _) _ => apply run_if
  | |- run _ _ _ _ (EApp (EVar (Id ?x)) _) _ =>
      first [eapply run_call_local; [reflexivity|eassumption|]
            |match goal with H : has _ _ x _ |- _ => eapply run_call; [exact H|reflexivity|nm|eassumption|] end]
  | |- runargs _ _ _ _ (_ :: _) _ => apply runargs_cons
  | |- runargs _ _ _ _ [] _ => apply runargs_nil; cbv beta iota
  | |- runseq _ _ _ _ [_] _ => apply runseq_one
  | |- runseq _ _ _ _ (_ :: _) _ => apply runseq_cons
  | |- _ /\ _ /\ (forall f, _ -> runap _ _ f _ _) =>
      split; [assumption|split; [assumption|let f := fresh "g" in let B := fresh "B" in intros f B]]
  end.
(** The procedure that has been called returns. *)
Ltac answered t :=
  eapply runap_returns; [t|]; let s := fresh "s" in let G := fresh "G" in intros s G; carry G; clear G; cbv beta iota.

Section Text.
  Variable names : list string.
  Hypothesis HN : incl library_names names.
  Variable prim : N -> list val -> heap -> option presult.
  Variable complaint : val -> val -> err.
  Variable complaintf : val -> list val -> err.
  Variable same : heap -> val -> val -> bool.
  Variable lit : obj -> val.
  Hypothesis HL : literals lit.
  Variable s0 : store.
  Local Notation has := (has names s0).
  Local Notation later := (later names).

  Lemma lib_name x : existsb (String.eqb x) library_names = true -> In x names.
  Proof. intros H. apply HN. apply existsb_exists in H. destruct H as (y & I & E). apply String.eqb_eq in E. now subst. Qed.
  Ltac nm := apply lib_name; reflexivity.
  Ltac stp := repeat lib_step nm.

  Lemma loaded_has t x fm body (B : store -> val -> Prop) :
    code_of lit t = EDefine [Id x] (ELam (Formals fm None) body) -> loaded lit s0 t ->
    (forall s f, later s0 s -> good s -> proc_at f (procs_of s) = Some (PClo [(Formals fm None, body)] []) -> B s f) ->
    has x B.
  Proof.
    intros E (y & g & b & f & E' & G & N & P) H. rewrite E in E'. injection E' as <- <- <-. exists f. split; auto. split; auto.
    intros s1 L GD. apply H; auto. eapply later_proc; eauto.
  Qed.
  Ltac from_text LD :=
    match type of LD with loaded _ _ ?t =>
      let e := eval vm_compute in (code_of lit t) in
      match e with EDefine [Id ?x] (ELam (Formals ?fm None) ?body) =>
        apply (loaded_has t x fm body); [vm_cast_no_check (eq_refl e)|exact LD|]
      end
    end.
  Lemma pairp_some h v a d : pair_at h v = Some (a, d) -> pairp h v = true.
  Proof. unfold pairp. now intros ->. Qed.
  Lemma pairp_none h v : pair_at h v = None -> pairp h v = false.
  Proof. unfold pairp. now intros ->. Qed.
  Lemma pair_bound h v a d : pair_at h v = Some (a, d) -> v <> VUnbound.
  Proof. intros H ->. discriminate. Qed.
  Lemma pair_not_null h v a d : pair_at h v = Some (a, d) -> nullp v = false.
  Proof. intros H. destruct v; auto. discriminate. Qed.
  Lemma list_bound h v xs : list_at h v xs -> v <> VUnbound.
  Proof. intros H ->. inversion H. Qed.
  Lemma pair_yes s f v a d : is_pair prim s f -> pair_at (heap_of s) v = Some (a, d) -> returns prim s f [v] VTrue.
  Proof. intros B H. specialize (B v). rewrite (pairp_some _ _ _ _ H) in B. exact B. Qed.
  Lemma pair_no s f v : is_pair prim s f -> no_pair (heap_of s) v -> returns prim s f [v] VFalse.
  Proof. intros B H. specialize (B v). rewrite (pairp_none _ _ (no_pair_at _ _ H)) in B. exact B. Qed.
  Lemma null_yes s f : is_null prim s f -> returns prim s f [VNull] VTrue.
  Proof. intros B. apply (B VNull). Qed.
  Lemma null_no s f v : is_null prim s f -> v <> VNull -> returns prim s f [v] VFalse.
  Proof. intros B N. specialize (B v). destruct v; auto. congruence. Qed.
  Lemma pair_null h v a d : pair_at h v = Some (a, d) -> v <> VNull.
  Proof. intros H ->. discriminate. Qed.
  Lemma lit_sym n : lit (OSym n) = VSym n.
  Proof. apply HL. Qed.

  Hypothesis Hpair : has "pair?" (is_pair prim).
  Hypothesis Hnull : has "null?" (is_null prim).
  Hypothesis Hnot : has "not" (is_not prim).
  Hypothesis Hlist : has "list?" (is_list prim).
  Hypothesis Hcons : has "cons" (is_cons prim).
  Hypothesis Hucar : has "$car" (is_unsafe_car prim).
  Hypothesis Hucdr : has "$cdr" (is_unsafe_cdr prim).
  Hypothesis Hurev : has "$reverse" (is_unsafe_reverse prim).
  Hypothesis Hrae : has "raise-argument-error" (is_complaint prim complaint).

  Lemma car_ok : loaded lit s0 car_text -> has "car" (is_car prim complaint).
  Proof.
    intros LD. from_text LD. intros s f LT GD P. assert (R := grows_refl s). split.
    - intros v a d Pv. apply returns_run. eapply runap_clo1; [exact P|eapply pair_bound; eauto|]. intros s1 b G1 _ C. carry G1.
      stp. answered ltac:(eapply pair_yes; eauto). cbn [truthy]. stp. answered ltac:(eapply B0; eauto). auto.
    - intros v Pv. apply raises_run. eapply runap_clo1; [exact P|eapply no_pair_bound; eauto|]. intros s1 b G1 _ C. carry G1.
      stp. answered ltac:(eapply pair_no; eauto). cbn [truthy]. stp.
      eapply runap_raises; [apply B0|]. rewrite lit_sym. intros s3 G3. carry G3. auto.
  Qed.
  Lemma cdr_ok : loaded lit s0 cdr_text -> has "cdr" (is_cdr prim complaint).
  Proof.
    intros LD. from_text LD. intros s f LT GD P. assert (R := grows_refl s). split.
    - intros v a d Pv. apply returns_run. eapply runap_clo1; [exact P|eapply pair_bound; eauto|]. intros s1 b G1 _ C. carry G1.
      stp. answered ltac:(eapply pair_yes; eauto). cbn [truthy]. stp. answered ltac:(eapply B0; eauto). auto.
    - intros v Pv. apply raises_run. eapply runap_clo1; [exact P|eapply no_pair_bound; eauto|]. intros s1 b G1 _ C. carry G1.
      stp. answered ltac:(eapply pair_no; eauto). cbn [truthy]. stp.
      eapply runap_raises; [apply B0|]. rewrite lit_sym. intros s3 G3. carry G3. auto.
  Qed.
  Lemma reverse_ok : loaded lit s0 reverse_text -> has "reverse" (is_reverse prim complaint).
  Proof.
    intros LD. from_text LD. intros s f LT GD P. assert (R := grows_refl s). split.
    - intros l xs H. apply returns_list_run. eapply runap_clo1; [exact P|eapply list_bound; eauto|]. intros s1 b G1 _ C. carry G1.
      stp. answered ltac:(eapply (proj1 B); eauto). cbn [truthy]. stp. destruct (B0 _ _ H) as (v & s3 & A & G3 & L3). carry G3. exists (RVals [v]), s3. auto.
    - intros v xs t Pv Pt. assert (NV : v <> VUnbound). { inversion Pv; subst; [apply no_pair_bound with (h := heap_of s); apply Pt|eapply pair_bound; eauto]. }
      apply raises_run. eapply runap_clo1; [exact P|exact NV|]. intros s1 b G1 _ C. carry G1.
      stp. answered ltac:(eapply (proj2 B); eauto). cbn [truthy]. stp.
      eapply runap_raises; [apply B0|]. rewrite lit_sym. intros s3 G3. carry G3. auto.
  Qed.

  Hypothesis Hcar : has "car" (is_car prim complaint).
  Hypothesis Hcdr : has "cdr" (is_cdr prim complaint).
  Hypothesis Hrev : has "reverse" (is_reverse prim complaint).
  Hypothesis Hequal : has "equal?" (is_equal prim same).
  (** Comparisons give the answers they gave at the start. *)
  Definition answers h0 (k : val) (xs : list val) : Prop := forall h x, extends h0 h -> In x xs -> same h x k = same h0 x k /\ same h k x = same h0 k x.
  Lemma grows_heap s s' : grows s s' -> extends (heap_of s) (heap_of s').
  Proof. intros (E & _). exact E. Qed.
  Lemma answers_tl h0 k x xs : answers h0 k (x :: xs) -> answers h0 k xs.
  Proof. intros H h y E I. apply H; cbn; auto. Qed.
  Lemma reach_list h v xs : list_at h v xs -> reach h v xs VNull.
  Proof. induction 1 as [|l a d xs E H IH]; [constructor|]. econstructor; [cbn; rewrite E; reflexivity|exact IH]. Qed.

  Lemma equal_fst so s f k x xs : is_equal prim same s f -> grows so s -> answers (heap_of so) k xs -> In x xs ->
    returns prim s f [x; k] (of_bool (same (heap_of so) x k)).
  Proof. intros B G A I. rewrite <- (proj1 (A _ _ (grows_heap _ _ G) I)). apply B. Qed.
  Lemma equal_snd so s f k x xs : is_equal prim same s f -> grows so s -> answers (heap_of so) k xs -> In x xs ->
    returns prim s f [k; x] (of_bool (same (heap_of so) k x)).
  Proof. intros B G A I. rewrite <- (proj2 (A _ _ (grows_heap _ _ G) I)). apply B. Qed.
  Lemma lit_false : lit OFalse = VFalse.
  Proof. apply HL. Qed.
  Lemma lit_null : lit ONull = VNull.
  Proof. apply HL. Qed.
  Lemma lit_fix z : lit (OFix z) = VFix z.
  Proof. apply HL. Qed.
  (** A loop of the library begins. *)
  Ltac enter := apply runseq_one; eapply run_loop; [assumption|];
    let lp := fresh "lp" in let s := fresh "s" in let G := fresh "G" in let CL := fresh "CL" in let PL := fresh "PL" in
    intros lp s G CL PL;
    match type of CL with cell_is _ (List.length (cells_of ?z)) _ => let i := fresh "i" in set (i := List.length (cells_of z)) in *; clearbody i end; carry G.

  Lemma member_ok : loaded lit s0 member_text -> has "member" (is_member prim complaint same).
  Proof.
    intros LD. from_text LD. intros so f LT GD P. assert (R := grows_refl so).
    assert (ALL : forall k l xs t o, k <> VUnbound -> reach (heap_of so) l xs t -> answers (heap_of so) k xs ->
      (t = VNull /\ o = RVals [match find (fun x => same (heap_of so) x k) xs with Some x => x | None => VFalse end] \/
       odd_tail (heap_of so) t /\ Forall (fun x => same (heap_of so) x k = false) xs /\ o = RErr (complaint (sym "member") t)) ->
      runap prim so f [k; l] (fun o' s' => o' = o /\ grows so s')).
    { intros k l xs t o NK RC AN TL.
      assert (NL : l <> VUnbound).
      { inversion RC; subst; [|eapply pair_bound; eauto]. destruct TL as [[-> _]|[[T _] _]]; [discriminate|eapply no_pair_bound; eauto]. }
      eapply runap_clo2; [exact P|exact NK|exact NL|]. intros s1 b c G1 _ _ C1 C2. carry G1. enter.
      assert (LOOP : forall xs l z, grows so z -> later s0 z -> good z -> cell_is z i lp -> cell_is z b k ->
        proc_at lp (procs_of z) = proc_at lp (procs_of s) -> reach (heap_of z) l xs t -> answers (heap_of so) k xs ->
        (t = VNull /\ o = RVals [match find (fun x => same (heap_of so) x k) xs with Some x => x | None => VFalse end] \/
         odd_tail (heap_of so) t /\ Forall (fun x => same (heap_of so) x k = false) xs /\ o = RErr (complaint (sym "member") t)) ->
        runap prim z lp [l] (fun o' s' => o' = o /\ grows so s')).
      { rewrite PL. clear - HN HL Hnull Hpair Hcar Hcdr Hrae Hequal NK.
        induction xs as [|x xs IH]; intros l s R LT GD CL CK PL RC AN TL.
        - inversion RC; subst. destruct TL as [[-> ->]|(T & _ & ->)].
          + eapply runap_clo1; [exact PL|discriminate|]. intros s1 c1 G1 _ C1. carry G1. stp. answered ltac:(apply null_yes; auto). cbn [truthy]. stp.
            rewrite lit_false. auto.
          + apply (grows_odd _ _ _ R) in T. destruct T as [T1 T2].
            eapply runap_clo1; [exact PL|eapply no_pair_bound; eauto|]. intros s1 c1 G1 _ C1. carry G1. stp. answered ltac:(eapply null_no; eauto).
            cbn [truthy]. stp. answered ltac:(eapply pair_no; eauto). cbn [truthy]. stp. eapply runap_raises; [apply B1|]. rewrite lit_sym. intros s4 G4. carry G4. auto.
        - inversion RC as [|? ? d ? ? Pv RC']; subst. eapply runap_clo1; [exact PL|eapply pair_bound; eauto|]. intros s1 c1 G1 _ C1. carry G1. stp.
          answered ltac:(eapply null_no; eauto using pair_null). cbn [truthy]. stp. answered ltac:(eapply pair_yes; eauto). cbn [truthy]. stp.
          answered ltac:(eapply (proj1 B1); eauto). stp. answered ltac:(eapply equal_fst; [exact B2|exact R|exact AN|now left]).
          destruct (same (heap_of so) x k) eqn:E; cbn [of_bool truthy]; stp.
          + answered ltac:(eapply (proj1 B3); eauto). split; auto. destruct TL as [[_ ->]|(_ & F & _)]; [cbn; now rewrite E|inversion F; congruence].
          + answered ltac:(eapply (proj1 B3); eauto). stp. eapply IH; eauto using answers_tl.
            destruct TL as [[-> ->]|(T & F & ->)]; [left; split; auto; cbn; now rewrite E|right; split; auto; split; auto; now inversion F]. }
      stp. eapply LOOP; eauto. }
    split; intros; [apply returns_run|apply raises_run]; eapply ALL; eauto using reach_list.
  Qed.
  Lemma reach_bound h l xs t : reach h l xs t -> t <> VUnbound -> l <> VUnbound.
  Proof. intros H N. inversion H; subst; auto. eapply pair_bound; eauto. Qed.
  Lemma odd_bound h t : odd_tail h t -> t <> VUnbound.
  Proof. intros [H _]. eapply no_pair_bound; eauto. Qed.
  Lemma list_at_cons h v a d xs : pair_at h v = Some (a, d) -> list_at h d xs -> list_at h v (a :: xs).
  Proof. intros P H. apply pair_at_inv in P. destruct P as (l & -> & E). econstructor; eauto. Qed.
  Ltac since R LO := pose proof (later_trans _ _ _ _ (proj1 LO) (grows_later names _ _ R)); pose proof (grows_good _ _ R (proj2 LO)).

  Lemma remove_ok : loaded lit s0 remove_text -> has "remove" (is_remove prim complaint same).
  Proof.
    intros LD. from_text LD. intros so f LT GD P. assert (LO : later s0 so /\ good so) by auto. assert (R := grows_refl so).
    assert (ALL : forall k l xs t, k <> VUnbound -> reach (heap_of so) l xs t -> answers (heap_of so) k xs ->
      (t = VNull \/ odd_tail (heap_of so) t) ->
      runap prim so f [k; l] (fun o' s' => grows so s' /\
         (t = VNull -> match o' with RVals [v] => list_at (heap_of s') v (List.filter (fun x => negb (same (heap_of so) x k)) xs) | _ => False end) /\
         (odd_tail (heap_of so) t -> o' = RErr (complaint (sym "remove") t)))).
    { intros k l xs t NK RC AN TL.
      assert (NL : l <> VUnbound). { eapply reach_bound; eauto. destruct TL as [->|T]; [discriminate|eapply odd_bound; eauto]. }
      eapply runap_clo2; [exact P|exact NK|exact NL|]. intros s1 b c G1 _ _ C1 C2. carry G1. enter.
      assert (LOOP : forall xs l z, grows so z -> later s0 z -> good z -> cell_is z i lp -> cell_is z b k ->
        proc_at lp (procs_of z) = proc_at lp (procs_of s) -> reach (heap_of z) l xs t -> answers (heap_of so) k xs ->
        runap prim z lp [l] (fun o' s' => grows so s' /\
         (t = VNull -> match o' with RVals [v] => list_at (heap_of s') v (List.filter (fun x => negb (same (heap_of so) x k)) xs) | _ => False end) /\
         (odd_tail (heap_of so) t -> o' = RErr (complaint (sym "remove") t)))).
      { rewrite PL. clear - HN HL Hnull Hpair Hcar Hcdr Hcons Hrae Hequal NK LO TL.
        induction xs as [|x xs IH]; intros l s R LT GD CL CK PL RC AN.
        - inversion RC; subst. destruct TL as [->|T].
          + eapply runap_clo1; [exact PL|discriminate|]. intros s1 c1 G1 _ C1. carry G1. stp. answered ltac:(apply null_yes; auto). cbn [truthy]. stp.
            rewrite lit_null. split; auto. split; [intros _; constructor|]. intros [_ T]. congruence.
          + pose proof (grows_odd _ _ _ R T) as [T1 T2].
            eapply runap_clo1; [exact PL|eapply no_pair_bound; eauto|]. intros s1 c1 G1 _ C1. carry G1. stp. answered ltac:(eapply null_no; eauto).
            cbn [truthy]. stp. answered ltac:(eapply pair_no; eauto). cbn [truthy]. stp. eapply runap_raises; [apply B1|]. rewrite lit_sym. intros s4 G4. carry G4.
            split; [auto|split; [congruence|auto]].
        - inversion RC as [|? ? d ? ? Pv RC']; subst. eapply runap_clo1; [exact PL|eapply pair_bound; eauto|]. intros s1 c1 G1 _ C1. carry G1. stp.
          answered ltac:(eapply null_no; eauto using pair_null). cbn [truthy]. stp. answered ltac:(eapply pair_yes; eauto). cbn [truthy]. stp.
          answered ltac:(eapply (proj1 B1); eauto). stp. answered ltac:(eapply equal_fst; [exact B2|exact R|exact AN|now left]).
          destruct (same (heap_of so) x k) eqn:E; cbn [of_bool truthy List.filter negb]; rewrite ?E; cbn [negb]; stp.
          + answered ltac:(eapply (proj1 B3); eauto). stp. eapply IH; eauto using answers_tl.
          + answered ltac:(eapply (proj1 B3); eauto). stp. answered ltac:(eapply (proj1 B4); eauto). stp.
            destruct (IH d s7 R LT GD CL CK PL RC' (answers_tl _ _ _ _ AN)) as (o & s8 & A8 & R8 & O1 & O2). exists o, s8. split; [exact A8|].
            destruct TL as [T|T].
            * specialize (O1 T). destruct o as [[|v [|]]|]; try contradiction. since R8 LO. stp. destruct (B5 x v) as (w & s9 & A9 & G9 & P9). carry G9.
              exists (RVals [w]), s9. split; auto. split; auto. split; [intros _; eapply list_at_cons; eauto|]. subst t. intros [_ N]; congruence.
            * rewrite (O2 T). split; auto. split; [intros ->; destruct T; congruence|auto]. }
      stp. eapply LOOP; eauto. }
    split.
    - intros k l xs NK H ST. destruct (ALL k l xs VNull NK (reach_list _ _ _ H) ST (or_introl eq_refl)) as (o & s1 & A & G & O1 & _). specialize (O1 eq_refl). destruct o as [[|v [|]]|]; try contradiction. exists v, s1. auto.
    - intros k l xs t NK H TT ST. destruct (ALL k l xs t NK H ST (or_intror TT)) as (o & s' & A & G & _ & O2). apply raises_run. exists o, s'. auto.
  Qed.

  Hypothesis Hsame : has "=" (is_same_number prim).
  Hypothesis Hsum : has "+" (is_sum prim).
  Lemma index_of_ok : loaded lit s0 index_of_text -> has "index-of" (is_index_of prim same).
  Proof.
    intros LD. from_text LD. intros so f LT GD P. assert (R := grows_refl so).
    intros k l xs NK H LEN AN. apply reach_list in H. apply returns_run.
    eapply runap_clo2; [exact P|exact NK|eapply reach_bound; eauto; discriminate|]. intros s1 b c G1 _ _ C1 C2. carry G1. enter.
    assert (LOOP : forall xs l z n, grows so z -> later s0 z -> good z -> cell_is z i lp -> cell_is z b k -> (0 <= n)%Z -> (n + Z.of_nat (List.length xs) < 2 ^ 62)%Z ->
        proc_at lp (procs_of z) = proc_at lp (procs_of s) -> reach (heap_of z) l xs VNull -> answers (heap_of so) k xs ->
        runap prim z lp [l; VFix n] (fun o' s' => o' = RVals [match index (same (heap_of so) k) xs with Some m => VFix (n + Z.of_nat m) | None => VFalse end] /\ grows so s')).
    { rewrite PL. clear - HN HL Hnull Hcar Hcdr Hsum Hequal NK.
      induction xs as [|x xs IH]; intros l s n R LT GD CL CK N0 NB PL RC AN.
      - inversion RC; subst. eapply runap_clo2; [exact PL|discriminate|discriminate|]. intros s1 c1 c2 G1 _ _ C1 C2. carry G1. stp. answered ltac:(apply null_yes; auto). cbn [truthy]. stp.
        rewrite lit_false. auto.
      - inversion RC as [|? ? d ? ? Pv RC']; subst. eapply runap_clo2; [exact PL|eapply pair_bound; eauto|discriminate|]. intros s1 c1 c2 G1 _ _ C1 C2. carry G1. stp.
        answered ltac:(eapply null_no; eauto using pair_null). cbn [truthy]. stp.
        answered ltac:(eapply (proj1 B0); eauto). stp. answered ltac:(eapply equal_snd; [exact B1|exact R|exact AN|now left]). cbn [index List.length] in *.
        destruct (same (heap_of so) k x) eqn:E; cbn [of_bool truthy]; stp.
        + split; auto. do 3 f_equal. lia.
        + answered ltac:(eapply (proj1 B2); eauto). stp. rewrite lit_fix. answered ltac:(apply B3; lia). stp.
          eapply runap_imp; [eapply IH; eauto using answers_tl; lia|]. intros o s9 [-> G9]. split; auto. destruct (index _ xs); auto. do 3 f_equal. lia. }
    stp. rewrite lit_fix. eapply runap_imp; [eapply LOOP; eauto; lia|]. intros o s9 [-> G9]. split; auto.
  Qed.

  Hypothesis Hindex : has "non-negative-integer?" (is_index prim).
  Hypothesis Hvoid : has "void" (is_void prim).
  Hypothesis Herrf : has "errorf" (is_complaintf prim complaintf).
  Lemma index_yes s f n : is_index prim s f -> returns prim s f [VFix (Z.of_nat n)] VTrue.
  Proof. intros B. specialize (B (VFix (Z.of_nat n))). cbv beta iota in B. rewrite (proj2 (Z.leb_le 0 (Z.of_nat n)) (Zle_0_nat n)) in B. exact B. Qed.
  Lemma index_no s f k : is_index prim s f -> (forall n, k <> VFix (Z.of_nat n)) -> returns prim s f [k] VFalse.
  Proof.
    intros B N. specialize (B k). destruct k; auto. destruct (Z.leb_spec 0 z); auto. specialize (N (Z.to_nat z)). rewrite Z2Nat.id in N; auto. congruence.
  Qed.
  Lemma list_ref_ok : loaded lit s0 list_ref_text -> has "list-ref" (is_list_ref prim complaint complaintf).
  Proof.
    intros LD. from_text LD. intros so f LT GD P. assert (R := grows_refl so).
    assert (ALL : forall n l xs t o, l <> VUnbound -> t <> VUnbound -> reach (heap_of so) l xs t -> (Z.of_nat (List.length xs) < 2 ^ 62)%Z ->
      (exists x, nth_error xs n = Some x /\ o = RVals [x]) \/
      (t = VNull /\ List.length xs <= n /\ o = RErr (complaintf (sym "list-ref") [VFix (Z.of_nat n); l])) ->
      runap prim so f [l; VFix (Z.of_nat n)] (fun o' s' => o' = o /\ grows so s')).
    { intros n l xs t o NL NT RC LEN OC. eapply runap_clo2; [exact P|exact NL|discriminate|]. intros s1 b c G1 _ _ C1 C2. carry G1. stp.
      answered ltac:(apply index_yes; auto). cbn [truthy]. stp. answered ltac:(apply B0). enter.
      assert (LOOP : forall xs y z m j, grows so z -> later s0 z -> good z -> cell_is z i lp -> cell_is z c (VFix (Z.of_nat n)) -> cell_is z b l -> m + j = n ->
        (Z.of_nat m + Z.of_nat (List.length xs) < 2 ^ 62)%Z ->
        proc_at lp (procs_of z) = proc_at lp (procs_of s3) -> reach (heap_of z) y xs t ->
        (exists x, nth_error xs j = Some x /\ o = RVals [x]) \/
        (t = VNull /\ List.length xs <= j /\ o = RErr (complaintf (sym "list-ref") [VFix (Z.of_nat n); l])) ->
        runap prim z lp [y; VFix (Z.of_nat m)] (fun o' s' => o' = o /\ grows so s')).
      { rewrite PL. clear - HN HL Hnull Hcar Hcdr Hsum Hsame Herrf NT.
        induction xs as [|x xs IH]; intros y s m j R LT GD CL CN CB MJ NB PL RC OC.
        - inversion RC; subst. destruct OC as [(x & E & _)|(-> & _ & ->)]; [destruct j; discriminate|].
          eapply runap_clo2; [exact PL|discriminate|discriminate|]. intros s1 c1 c2 G1 _ _ C1 C2. carry G1. stp. answered ltac:(apply null_yes; auto). cbn [truthy]. stp.
          eapply runap_raises; [apply B0; rewrite lit_sym; discriminate|]. rewrite lit_sym. intros s4 G4. carry G4. auto.
        - inversion RC as [|? ? d ? ? Pv RC']; subst. eapply runap_clo2; [exact PL|eapply pair_bound; eauto|discriminate|]. intros s1 c1 c2 G1 _ _ C1 C2. carry G1. stp.
          answered ltac:(eapply null_no; eauto using pair_null). cbn [truthy]. stp. answered ltac:(apply B0).
          cbn [List.length] in *. destruct j as [|j].
          + rewrite Nat.add_0_r, Z.eqb_refl. cbn [of_bool truthy]. stp. answered ltac:(eapply (proj1 B1); eauto). split; auto.
            destruct OC as [(z & E & ->)|(_ & L & _)]; [cbn in E; congruence|lia].
          + replace (Z.of_nat m =? Z.of_nat (m + S j))%Z with false by (symmetry; apply Z.eqb_neq; lia). cbn [of_bool truthy]. stp. answered ltac:(eapply (proj1 B1); eauto). stp.
            rewrite lit_fix. answered ltac:(apply B2; lia). stp. replace (Z.of_nat m + 1)%Z with (Z.of_nat (S m)) by lia.
            eapply (IH _ _ (S m) j); eauto; [lia|lia|]. destruct OC as [(z & E & ->)|(T & L & ->)]; [left; eauto|right; split; auto; split; auto; lia]. }
      stp. rewrite lit_fix. apply (LOOP xs l s3 0 n); auto. }
    split; [|split].
    - intros l xs t n x RC NT LEN E. apply returns_run. eapply ALL; eauto. eapply reach_bound; eauto.
    - intros l xs n H LEN L. apply raises_run. apply reach_list in H. eapply ALL; eauto; [eapply reach_bound; eauto; discriminate|discriminate].
    - intros l k NL NK NI. apply raises_run. eapply runap_clo2; [exact P|exact NL|exact NK|]. intros s1 b c G1 _ _ C1 C2. carry G1. stp.
      answered ltac:(apply index_no; auto). cbn [truthy]. apply run_let0. stp.
      assert (E : add_cells [] s = s) by (destruct s; cbn; unfold add_cells; cbn; now rewrite app_nil_r). rewrite E. stp.
      eapply runap_raises; [apply B0|]. rewrite lit_sym. intros s4 G4. carry G4. auto.
  Qed.

  Lemma list_uncons h y x xs : list_at h y (x :: xs) -> exists d, pair_at h y = Some (x, d) /\ list_at h d xs.
  Proof. intros H. inversion H as [|q ? d ? E H']; subst. exists d. split; auto. cbn. now rewrite E. Qed.
  Hypothesis Happend : has "append" (is_append prim).
  Lemma list_set_ok : loaded lit s0 list_set_text -> has "list-set" (is_list_set prim complaint complaintf).
  Proof.
    intros LD. from_text LD. intros so f LT GD P. assert (R := grows_refl so).
    assert (ALL : forall l xs n v, v <> VUnbound -> list_at (heap_of so) l xs -> (Z.of_nat (List.length xs) < 2 ^ 62)%Z ->
      runap prim so f [l; VFix (Z.of_nat n); v] (fun o' s' => grows so s' /\
        (n < List.length xs -> match o' with RVals [w] => list_at (heap_of s') w (firstn n xs ++ v :: skipn (S n) xs) | _ => False end) /\
        (List.length xs <= n -> o' = RErr (complaintf (sym "list-set") [VFix (Z.of_nat n); l])))).
    { intros l xs n v NV H LEN. eapply runap_clo3; [exact P|eapply list_bound; eauto|discriminate|exact NV|]. intros s1 b c d G1 _ _ _ C1 C2 C3. carry G1. stp.
      answered ltac:(apply index_yes; auto). cbn [truthy]. stp. answered ltac:(apply B0). enter.
      assert (LOOP : forall xs y z m j w acc, grows so z -> later s0 z -> good z -> cell_is z i lp -> cell_is z c (VFix (Z.of_nat n)) -> cell_is z b l -> cell_is z d v -> m + j = n ->
        (Z.of_nat m + Z.of_nat (List.length xs) < 2 ^ 62)%Z ->
        proc_at lp (procs_of z) = proc_at lp (procs_of s3) -> list_at (heap_of z) y xs -> list_at (heap_of z) w acc ->
        runap prim z lp [y; VFix (Z.of_nat m); w] (fun o' s' => grows so s' /\
          (j < List.length xs -> match o' with RVals [u] => list_at (heap_of s') u (rev acc ++ firstn j xs ++ v :: skipn (S j) xs) | _ => False end) /\
          (List.length xs <= j -> o' = RErr (complaintf (sym "list-set") [VFix (Z.of_nat n); l])))).
      { rewrite PL. clear - HN HL Hnull Hpair Hcar Hcdr Hsum Hsame Herrf Hcons Happend Hrev Hrae.
        induction xs as [|x xs IH]; intros y s m j w acc R LT GD CL CN CB CV MJ NB PL RC RA.
        - inversion RC; subst. eapply runap_clo3; [exact PL|discriminate|discriminate|eapply list_bound; eauto|]. intros s1 c1 c2 c3 G1 _ _ _ C1 C2 C3. carry G1. stp.
          answered ltac:(apply null_yes; auto). cbn [truthy]. stp.
          eapply runap_raises; [apply B0; rewrite lit_sym; discriminate|]. rewrite lit_sym. intros s4 G4. carry G4. split; auto. split; auto. cbn. lia.
        - apply list_uncons in RC. destruct RC as (d0 & Pv & RC').
          eapply runap_clo3; [exact PL|eapply pair_bound; eauto|discriminate|eapply list_bound; eauto|]. intros s1 c1 c2 c3 G1 _ _ _ C1 C2 C3. carry G1. stp.
          answered ltac:(eapply null_no; eauto using pair_null). cbn [truthy]. stp. answered ltac:(apply B0).
          cbn [List.length] in *. destruct j as [|j].
          + rewrite <- MJ, Nat.add_0_r, Z.eqb_refl. cbn [of_bool truthy]. stp. destruct (proj1 B1 _ _ RA) as (u & s4 & A4 & G4 & L4). exists (RVals [u]), s4. split; [exact A4|]. carry G4. stp.
            answered ltac:(eapply (proj1 B2); eauto). stp. destruct (B3 v d0) as (u2 & s6 & A6 & G6 & L6). exists (RVals [u2]), s6. split; [exact A6|]. carry G6. stp.
            destruct (B4 u u2 (rev acc) (v :: xs)) as (u3 & s7 & A7 & G7 & L7); [auto|eapply list_at_cons; eauto|]. exists (RVals [u3]), s7. split; [exact A7|]. carry G7.
            split; auto. split; [intros _; exact L7|]. lia.
          + replace (Z.of_nat m =? Z.of_nat n)%Z with false by (symmetry; apply Z.eqb_neq; lia). cbn [of_bool truthy]. stp.
            answered ltac:(eapply pair_yes; eauto). cbn [truthy]. stp. answered ltac:(eapply (proj1 B2); eauto). stp.
            rewrite lit_fix. answered ltac:(apply B3; lia). stp. answered ltac:(eapply (proj1 B4); eauto). stp.
            destruct (B5 x w) as (u & s8 & A8 & G8 & L8). exists (RVals [u]), s8. split; [exact A8|]. carry G8. stp.
            replace (Z.of_nat m + 1)%Z with (Z.of_nat (S m)) by lia.
            eapply runap_imp; [apply (IH d0 s8 (S m) j u (x :: acc)); auto; [lia|lia|eapply list_at_cons; eauto]|].
            intros o s9 (G9 & O1 & O2). split; auto. split; [|intros LE; apply O2; lia]. intros LE. specialize (O1 ltac:(lia)).
            destruct o as [[|u9 [|]]|]; try contradiction. cbn [rev firstn skipn] in *. rewrite <- app_assoc in O1. exact O1. }
      stp. rewrite lit_fix, lit_null. eapply (LOOP xs l s3 0 n VNull []); auto. constructor. }
    split.
    - intros l xs n v NV H LEN. destruct (ALL l xs n v NV H LEN) as (o & s1 & A & G & O1 & O2). split; intros LE.
      + specialize (O1 LE). destruct o as [[|u [|]]|]; try contradiction. exists u, s1. auto.
      + rewrite (O2 LE) in A. exists s1. auto.
    - intros l k v NL NK NV NI. apply raises_run. eapply runap_clo3; [exact P|exact NL|exact NK|exact NV|]. intros s1 b c d G1 _ _ _ C1 C2 C3. carry G1. stp.
      answered ltac:(apply index_no; auto). cbn [truthy]. apply run_let0. stp.
      assert (E : add_cells [] s = s) by (destruct s; cbn; unfold add_cells; cbn; now rewrite app_nil_r). rewrite E. stp.
      eapply runap_raises; [apply B0|]. rewrite lit_sym. intros s4 G4. carry G4. auto.
  Qed.

  Lemma first_ok : loaded lit s0 first_text -> has "first" (is_first prim complaint).
  Proof.
    intros LD. from_text LD. intros s f LT GD P. assert (R := grows_refl s). split; [|split].
    - intros l x xs H. apply returns_run. inversion H as [|q ? d ? E H']; subst. assert (Pv : pair_at (heap_of s) (VPtr q) = Some (x, d)) by (cbn; now rewrite E). clear E.
      eapply runap_clo1; [exact P|discriminate|]. intros s1 b G1 _ C. carry G1.
      stp. answered ltac:(eapply (proj1 B); eauto). cbn [truthy]. stp. answered ltac:(eapply (proj1 B0); eauto). auto.
    - apply raises_run. eapply runap_clo1; [exact P|discriminate|]. intros s1 b G1 _ C. carry G1.
      stp. answered ltac:(eapply (proj1 B); constructor). cbn [truthy]. stp.
      eapply runap_raises; [apply (proj2 B0); exact Logic.I|]. intros s3 G3. carry G3. auto.
    - intros v xs t Pv Pt. apply raises_run. eapply runap_clo1; [exact P|eapply reach_bound; eauto using odd_bound|]. intros s1 b G1 _ C. carry G1.
      stp. answered ltac:(eapply (proj2 B); eauto). cbn [truthy]. stp.
      eapply runap_raises; [apply B0|]. rewrite lit_sym. intros s3 G3. carry G3. auto.
  Qed.

  Hypothesis Hcaar : has "caar" (is_caar prim).
  Lemma assoc_ok : loaded lit s0 assoc_text -> has "assoc" (is_assoc prim same).
  Proof.
    intros LD. from_text LD. intros so f LT GD P. assert (R := grows_refl so).
    intros k l es en NK H EN AN. apply returns_run.
    eapply runap_clo2; [exact P|exact NK|eapply list_bound; eauto|]. intros s1 b c G1 _ _ C1 C2. carry G1. enter.
    assert (LOOP : forall es en y z, grows so z -> later s0 z -> good z -> cell_is z i lp -> cell_is z b k -> cell_is z c l ->
        proc_at lp (procs_of z) = proc_at lp (procs_of s) -> list_at (heap_of z) y es -> entries (heap_of so) es en -> answers (heap_of so) k (map (fun e => snd (fst e)) en) ->
        runap prim z lp [y] (fun o' s' => o' = RVals [match find (fun e => same (heap_of so) k (snd (fst e))) en with Some e => fst (fst e) | None => VFalse end] /\ grows so s')).
    { rewrite PL. clear - HN HL Hnull Hnot Hpair Hcar Hcdr Hequal Hcaar Hrae NK.
      induction es as [|e es IH]; intros en y s R LT GD CL CK CB PL RC EN AN.
      - inversion RC; inversion EN; subst. eapply runap_clo1; [exact PL|discriminate|]. intros s1 c1 G1 _ C1. carry G1. stp. answered ltac:(apply null_yes; auto). cbn [truthy]. stp.
        rewrite lit_false. auto.
      - inversion RC as [|q ? d0 ? E RC']; subst. assert (Pv : pair_at (heap_of s) (VPtr q) = Some (e, d0)) by (cbn; now rewrite E). clear E.
        inversion EN as [|? key v ? en' PE EN']; subst. pose proof (grows_pair _ _ _ _ _ R PE) as Pe.
        eapply runap_clo1; [exact PL|discriminate|]. intros s1 c1 G1 _ C1. carry G1. stp.
        answered ltac:(eapply null_no; eauto using pair_null). cbn [truthy]. stp.
        answered ltac:(eapply pair_yes; eauto). stp. answered ltac:(apply B1). cbn [truthy negb of_bool]. stp.
        answered ltac:(eapply (proj1 B2); eauto). stp. answered ltac:(eapply pair_yes; eauto). stp. answered ltac:(apply B4). cbn [truthy negb of_bool]. stp.
        answered ltac:(eapply B5; eauto). stp. answered ltac:(eapply equal_snd; [exact B6|exact R|exact AN|now left]). cbn [find fst snd map] in *.
        destruct (same (heap_of so) k key) eqn:E; cbn [of_bool truthy]; stp.
        + answered ltac:(eapply (proj1 B7); eauto). auto.
        + answered ltac:(eapply (proj1 B7); eauto). stp. eapply IH; eauto using answers_tl. }
    stp. eapply LOOP; eauto.
  Qed.

  Lemma loaded_rest t x fm rs body (B : store -> val -> Prop) :
    code_of lit t = EDefine [Id x] (ELam (Formals fm rs) body) -> loaded lit s0 t ->
    (forall s f, later s0 s -> good s -> proc_at f (procs_of s) = Some (PClo [(Formals fm rs, body)] []) -> B s f) ->
    has x B.
  Proof.
    intros E (y & g & b & f & E' & G & N & P) H. rewrite E in E'. injection E' as <- <- <-. exists f. split; auto. split; auto.
    intros s1 L GD. apply H; auto. eapply later_proc; eauto.
  Qed.
  Lemma cons_star_ok : loaded lit s0 cons_star_text -> has "cons*" (is_cons_star prim).
  Proof.
    intros LD. match type of LD with loaded _ _ ?t =>
      let e := eval vm_compute in (code_of lit t) in
      match e with EDefine [Id ?x] (ELam (Formals ?fm ?rs) ?body) => apply (loaded_rest t x fm rs body); [vm_cast_no_check (eq_refl e)|exact LD|] end end.
    intros so f LT GD P. assert (R := grows_refl so). assert (LO : later s0 so /\ good so) by auto.
    intros vs v FA. assert (exists y r, vs ++ [v] = y :: r) as (y & r & E) by (destruct vs; cbn; eauto). rewrite E in *.
    inversion FA as [|? ? Ny FA']; subst.
    assert (RUN : runap prim so f (y :: r) (fun o s' => grows so s' /\ match o with RVals [w] => reach (heap_of s') w vs v | _ => False end)).
    { eapply runap_rest1; [exact P|exact Ny|]. intros s1 b c l G1 C1 C2 RL. carry G1. enter.
      assert (LOOP : forall r y vs l z, grows so z -> later s0 z -> good z -> cell_is z i lp -> y <> VUnbound -> Forall (fun x => x <> VUnbound) r -> vs ++ [v] = y :: r ->
        proc_at lp (procs_of z) = proc_at lp (procs_of s) -> list_at (heap_of z) l r ->
        runap prim z lp [y; l] (fun o s' => grows so s' /\ match o with RVals [w] => reach (heap_of s') w vs v | _ => False end)).
      { rewrite PL. clear - HN HL Hnull Hcar Hcdr Hcons LO.
        induction r as [|x r IH]; intros y vs l s R LT GD CL NY FA E PL RC.
        - inversion RC; subst. assert (vs = [] /\ v = y) as [-> ->]. { destruct vs as [|? [|]]; cbn in E; try discriminate. split; congruence. }
          eapply runap_clo2; [exact PL|exact NY|discriminate|]. intros s1 c1 c2 G1 _ _ C1 C2. carry G1. stp. answered ltac:(apply null_yes; auto). cbn [truthy]. stp.
          split; auto. constructor.
        - inversion RC as [|q ? d0 ? Eq RC']; subst. assert (Pv : pair_at (heap_of s) (VPtr q) = Some (x, d0)) by (cbn; now rewrite Eq). clear Eq.
          inversion FA as [|? ? NX FA']; subst. destruct vs as [|a vs]; [discriminate|]. cbn in E. injection E as -> E.
          eapply runap_clo2; [exact PL|exact NY|discriminate|]. intros s1 c1 c2 G1 _ _ C1 C2. carry G1. stp. answered ltac:(eapply null_no; eauto; discriminate). cbn [truthy]. stp.
          answered ltac:(eapply (proj1 B0); eauto). stp. answered ltac:(eapply (proj1 B1); eauto). stp.
          destruct (IH x vs d0 s4 R LT GD CL NX FA' E PL RC') as (o & s5 & A5 & R5 & O5). exists o, s5. split; [exact A5|].
          destruct o as [[|w [|]]|]; try contradiction. since R5 LO. stp. destruct (B2 y w) as (u & s6 & A6 & G6 & P6). exists (RVals [u]), s6. split; [exact A6|]. carry G6.
          split; auto. econstructor; eauto. }
      stp. eapply LOOP; eauto. }
    destruct RUN as (o & s1 & A & G & O). destruct o as [[|w [|]]|]; try contradiction. exists w, s1. auto.
  Qed.

  Hypothesis Hdiff : has "-" (is_difference prim).
  Section Nth.
    Variables (who : string) (n : nat) (c1 c2 : val).
    Hypothesis NB : (Z.of_nat n < 2 ^ 61)%Z.
    Definition nth_loop : list expr :=
      [EIf (EApp (EVar (Id "pair?")) [EVar (Id "xs")])
         (EIf (EApp (EVar (Id "=")) [EVar (Id "pos"); EConst (lit (OFix 1))]) (EApp (EVar (Id "car")) [EVar (Id "xs")])
            (EApp (EVar (Id "loop")) [EApp (EVar (Id "cdr")) [EVar (Id "xs")]; EApp (EVar (Id "-")) [EVar (Id "pos"); EConst (lit (OFix 1))]]))
         (EApp (EVar (Id "errorf")) [EConst (lit (OSym (list_ascii_of_string who))); EConst c1; EVar (Id "lst")])].
    Definition nth_body : list expr :=
      [EIf (EApp (EVar (Id "list?")) [EVar (Id "lst")])
         (ELetrec [([Id "loop"], ELam (Formals [Id "xs"; Id "pos"] None) nth_loop)]
            [EApp (EVar (Id "loop")) [EVar (Id "lst"); EConst (lit (OFix (Z.of_nat (S n))))]])
         (EApp (EVar (Id "raise-argument-error")) [EConst (lit (OSym (list_ascii_of_string who))); EConst c2; EVar (Id "lst")])].
    Lemma nth_ok so f : later s0 so -> good so -> proc_at f (procs_of so) = Some (PClo [(Formals [Id "lst"] None, nth_body)] []) ->
      is_nth prim complaint complaintf who n so f.
    Proof.
      intros LT GD P. assert (R := grows_refl so).
      assert (ALL : forall l xs o, list_at (heap_of so) l xs ->
        (exists x, nth_error xs n = Some x /\ o = RVals [x]) \/ (List.length xs <= n /\ o = RErr (complaintf (sym who) [l])) ->
        runap prim so f [l] (fun o' s' => o' = o /\ grows so s')).
      { intros l xs o H OC. eapply runap_clo1; [exact P|eapply list_bound; eauto|]. intros s1 b G1 _ C1. carry G1. unfold nth_body. stp.
        answered ltac:(eapply (proj1 B); eauto). cbn [truthy]. change (run prim false [(Id "lst", b)] s) with (run prim false [(Id "lst", b)] s).
        eapply run_loop; [assumption|]. intros lp s2 G2 CL PL.
        match type of CL with cell_is _ (List.length (cells_of ?z)) _ => set (i := List.length (cells_of z)) in *; clearbody i end. carry G2.
        assert (LOOP : forall xs y z j, grows so z -> later s0 z -> good z -> cell_is z i lp -> cell_is z b l -> (Z.of_nat j < 2 ^ 61)%Z ->
          proc_at lp (procs_of z) = proc_at lp (procs_of s2) -> list_at (heap_of z) y xs ->
          (exists x, nth_error xs j = Some x /\ o = RVals [x]) \/ (List.length xs <= j /\ o = RErr (complaintf (sym who) [l])) ->
          runap prim z lp [y; VFix (Z.of_nat (S j))] (fun o' s' => o' = o /\ grows so s')).
        { rewrite PL. clear - HN HL Hpair Hcar Hcdr Hdiff Hsame Herrf.
          induction xs as [|x xs IH]; intros y s j R LT GD CL CB NB PL RC OC.
          - inversion RC; subst. destruct OC as [(x & E & _)|(_ & ->)]; [destruct j; discriminate|].
            eapply runap_clo2; [exact PL|discriminate|discriminate|]. intros s1 d1 d2 G1 _ _ C1 C2. carry G1. unfold nth_loop. stp.
            answered ltac:(eapply pair_no; [eassumption|exact Logic.I]). cbn [truthy]. stp.
            eapply runap_raises; [apply B0; rewrite lit_sym; discriminate|]. rewrite lit_sym. intros s4 G4. carry G4. auto.
          - apply list_uncons in RC. destruct RC as (d0 & Pv & RC'). eapply runap_clo2; [exact PL|eapply pair_bound; eauto|discriminate|]. intros s1 d1 d2 G1 _ _ C1 C2. carry G1.
            unfold nth_loop at 1. stp. answered ltac:(eapply pair_yes; eauto). cbn [truthy]. stp. rewrite ?lit_fix. answered ltac:(apply B0).
            cbn [List.length] in *. destruct j as [|j].
            + change (Z.of_nat 1 =? 1)%Z with true. cbn [of_bool truthy]. stp. answered ltac:(eapply (proj1 B1); eauto). split; auto.
              destruct OC as [(z & E & ->)|(L & _)]; [cbn in E; congruence|lia].
            + replace (Z.of_nat (S (S j)) =? 1)%Z with false by (symmetry; apply Z.eqb_neq; lia). cbn [of_bool truthy]. stp.
              answered ltac:(eapply (proj1 B1); eauto). stp. rewrite ?lit_fix. answered ltac:(apply B2; lia). stp.
              replace (Z.of_nat (S (S j)) - 1)%Z with (Z.of_nat (S j)) by lia.
              eapply (IH _ _ j); eauto; [lia|]. destruct OC as [(z & E & ->)|(L & ->)]; [left; eauto|right; split; auto; lia]. }
        stp. rewrite ?lit_fix. apply (LOOP xs l s2 n); auto. }
      split; [|split].
      - intros l xs x H E. apply returns_run. eapply ALL; eauto.
      - intros l xs H L. apply raises_run. eapply ALL; eauto.
      - intros v xs t Pv Pt. apply raises_run. eapply runap_clo1; [exact P|eapply reach_bound; eauto using odd_bound|]. intros s1 b G1 _ C. carry G1. unfold nth_body.
        stp. answered ltac:(eapply (proj2 B); eauto). cbn [truthy]. stp.
        eapply runap_raises; [apply B0|]. rewrite lit_sym. intros s3 G3. carry G3. auto.
    Qed.
  End Nth.
  Ltac nth_text LD n := from_text LD; intros; match goal with |- is_nth _ _ _ ?w _ _ _ => eapply (nth_ok w n); eauto; vm_compute; reflexivity end.
  Lemma second_ok : loaded lit s0 second_text -> has "second" (is_nth prim complaint complaintf "second" 1).
  Proof. intros LD. nth_text LD 1. Qed.
  Lemma third_ok : loaded lit s0 third_text -> has "third" (is_nth prim complaint complaintf "third" 2).
  Proof. intros LD. nth_text LD 2. Qed.
  Lemma fourth_ok : loaded lit s0 fourth_text -> has "fourth" (is_nth prim complaint complaintf "fourth" 3).
  Proof. intros LD. nth_text LD 3. Qed.
  Lemma fifth_ok : loaded lit s0 fifth_text -> has "fifth" (is_nth prim complaint complaintf "fifth" 4).
  Proof. intros LD. nth_text LD 4. Qed.
  Lemma sixth_ok : loaded lit s0 sixth_text -> has "sixth" (is_nth prim complaint complaintf "sixth" 5).
  Proof. intros LD. nth_text LD 5. Qed.
  Lemma seventh_ok : loaded lit s0 seventh_text -> has "seventh" (is_nth prim complaint complaintf "seventh" 6).
  Proof. intros LD. nth_text LD 6. Qed.
  Lemma eighth_ok : loaded lit s0 eighth_text -> has "eighth" (is_nth prim complaint complaintf "eighth" 7).
  Proof. intros LD. nth_text LD 7. Qed.
  Lemma ninth_ok : loaded lit s0 ninth_text -> has "ninth" (is_nth prim complaint complaintf "ninth" 8).
  Proof. intros LD. nth_text LD 8. Qed.
  Lemma tenth_ok : loaded lit s0 tenth_text -> has "tenth" (is_nth prim complaint complaintf "tenth" 9).
  Proof. intros LD. nth_text LD 9. Qed.

  Lemma filter_filter (p q : val -> bool) xs : List.filter q (List.filter p xs) = List.filter (fun x => p x && q x) xs.
  Proof. induction xs as [|x xs IH]; cbn; auto. destruct (p x); cbn; rewrite IH; auto. Qed.
  Definition kept_of (so : store) ks xs := List.filter (fun x => negb (existsb (fun key => same (heap_of so) x key) ks)) xs.
  Lemma kept_cons so key ks xs : kept_of so ks (List.filter (fun x => negb (same (heap_of so) x key)) xs) = kept_of so (key :: ks) xs.
  Proof. unfold kept_of. rewrite filter_filter. apply filter_ext. intros x. cbn. now rewrite negb_orb. Qed.
  Lemma filter_all (xs : list val) : List.filter (fun _ => true) xs = xs.
  Proof. induction xs as [|x xs IH]; cbn; congruence. Qed.
  Lemma list_reach h v xs : reach h v xs VNull -> list_at h v xs.
  Proof. intros H. remember VNull as t. induction H; subst; [constructor|eapply list_at_cons; eauto]. Qed.
  Lemma answers_filter h k xs p : answers h k xs -> answers h k (List.filter p xs).
  Proof. intros A h' E x I. apply filter_In in I. apply A; tauto. Qed.
  Lemma remove_star_ok : loaded lit s0 remove_star_text -> has "remove*" (is_remove_star prim complaint same).
  Proof.
    intros LD. from_text LD. intros so f LT GD P. assert (LO : later s0 so /\ good so) by auto. assert (R := grows_refl so).
    set (Q := fun t ks xs (o' : res) (s' : store) => grows so s' /\
         (t = VNull -> match o' with RVals [v] => list_at (heap_of s') v (kept_of so ks xs) | _ => False end) /\
         (odd_tail (heap_of so) t -> o' = RErr (complaint (sym "remove*") t))).
    assert (ALL : forall kl ks l xs t, list_at (heap_of so) kl ks -> reach (heap_of so) l xs t ->
      (t = VNull /\ (forall key, In key ks -> answers (heap_of so) key xs) \/
       odd_tail (heap_of so) t /\ match ks with key :: _ => answers (heap_of so) key xs | [] => False end) ->
      runap prim so f [kl; l] (Q t ks xs)).
    { intros kl ks l xs t RK RC TL.
      assert (NL : l <> VUnbound). { eapply reach_bound; eauto. destruct TL as [[-> _]|[T _]]; [discriminate|eapply odd_bound; eauto]. }
      eapply runap_clo2; [exact P|eapply list_bound; eauto|exact NL|]. intros s1 b c G1 _ _ C1 C2. carry G1. stp.
      answered ltac:(eapply (proj1 B); eauto). cbn [truthy]. stp. answered ltac:(apply B0). enter.
      assert (LOOP : forall ks kl xs l z, grows so z -> later s0 z -> good z -> cell_is z i lp ->
        proc_at lp (procs_of z) = proc_at lp (procs_of s3) -> list_at (heap_of z) kl ks -> reach (heap_of z) l xs t ->
        (t = VNull /\ (forall key, In key ks -> answers (heap_of so) key xs) \/
         odd_tail (heap_of so) t /\ match ks with key :: _ => answers (heap_of so) key xs | [] => False end) ->
        runap prim z lp [kl; l] (Q t ks xs)).
      { rewrite PL. clear - HN HL Hnull Hpair Hcar Hcdr Hcons Hrae Hequal LO.
        induction ks as [|key ks IH]; intros kl xs l s R LT GD CL PL RK RC TL.
        - destruct TL as [[-> _]|[_ []]]. inversion RK; subst.
          assert (NL : l <> VUnbound) by (eapply reach_bound; [eauto|discriminate]).
          eapply runap_clo2; [exact PL|discriminate|exact NL|]. intros s1 b1 c1 G1 _ _ C1 C2. carry G1. stp.
          answered ltac:(apply null_yes; auto). cbn [truthy]. stp. split; auto. split; [intros _|intros [_ T]; congruence].
          unfold kept_of. cbn. rewrite filter_all. now apply list_reach.
        - assert (NL : l <> VUnbound). { eapply reach_bound; eauto. destruct TL as [[-> _]|[T _]]; [discriminate|eapply odd_bound; eauto]. }
          apply list_uncons in RK. destruct RK as (kd & Pk & RK).
          eapply runap_clo2; [exact PL|eapply pair_bound; eauto|exact NL|]. intros s1 b1 c1 G1 _ _ C1 C2. carry G1. stp.
          answered ltac:(eapply null_no; eauto using pair_null). cbn [truthy]. stp.
          assert (LN : l = VNull \/ l <> VNull) by (destruct l; try (left; reflexivity); right; discriminate).
          destruct LN as [->|LN].
          + inversion RC; subst; [|discriminate]. destruct TL as [TL|[[_ T] _]]; [|congruence].
            answered ltac:(apply null_yes; auto). cbn [truthy]. stp. rewrite lit_null. split; auto. split; [intros _; constructor|intros [_ T]; congruence].
          + answered ltac:(apply null_no; eauto). cbn [truthy]. stp. answered ltac:(eapply (proj1 B1); eauto). stp.
            eapply run_loop; [assumption|]. intros lp2 s5 G5 CL2 PL2.
            match type of CL2 with cell_is _ (List.length (cells_of ?z)) _ => set (i2 := List.length (cells_of z)) in *; clearbody i2 end. carry G5.
            assert (INNER : forall xs l z, grows so z -> grows s5 z -> later s0 z -> good z -> cell_is z i2 lp2 -> cell_is z b1 kl -> pair_at (heap_of z) kl = Some (key, kd) ->
              proc_at lp2 (procs_of z) = proc_at lp2 (procs_of s5) -> reach (heap_of z) l xs t -> answers (heap_of so) key xs -> (t = VNull \/ odd_tail (heap_of so) t) ->
              runap prim z lp2 [l] (fun o' s' => grows so s' /\ grows s5 s' /\
                (t = VNull -> match o' with RVals [v] => list_at (heap_of s') v (List.filter (fun x => negb (same (heap_of so) x key)) xs) | _ => False end) /\
                (odd_tail (heap_of so) t -> o' = RErr (complaint (sym "remove*") t)))).
            { rewrite PL2. clear - HN HL Hnull Hpair Hcar Hcdr Hcons Hrae Hequal LO.
              induction xs as [|x xs IH]; intros l s R RZ LT GD CL CK Pk PL RC AN TL.
              - inversion RC; subst. destruct TL as [->|T].
                + eapply runap_clo1; [exact PL|discriminate|]. intros s1 d1 G1 _ C1. carry G1. stp. answered ltac:(apply null_yes; auto). cbn [truthy]. stp.
                  rewrite lit_null. split; auto. split; auto. split; [intros _; constructor|]. intros [_ T]. congruence.
                + pose proof (grows_odd _ _ _ R T) as [T1 T2].
                  eapply runap_clo1; [exact PL|eapply no_pair_bound; eauto|]. intros s1 d1 G1 _ C1. carry G1. stp. answered ltac:(eapply null_no; eauto).
                  cbn [truthy]. stp. answered ltac:(eapply pair_no; eauto). cbn [truthy]. stp. eapply runap_raises; [apply B1|]. rewrite lit_sym. intros s4 G4. carry G4.
                  split; [auto|split; [auto|split; [congruence|auto]]].
              - inversion RC as [|? ? d ? ? Pv RC']; subst. eapply runap_clo1; [exact PL|eapply pair_bound; eauto|]. intros s1 d1 G1 _ C1. carry G1. stp.
                answered ltac:(eapply null_no; eauto using pair_null). cbn [truthy]. stp. answered ltac:(eapply pair_yes; eauto). cbn [truthy]. stp.
                answered ltac:(eapply (proj1 B1); eauto). stp. answered ltac:(eapply (proj1 B2); eauto). stp.
                answered ltac:(eapply equal_fst; [eassumption|exact R|exact AN|now left]).
                destruct (same (heap_of so) x key) eqn:E; cbn [of_bool truthy List.filter negb]; rewrite ?E; cbn [negb]; stp.
                + answered ltac:(eapply (proj1 B4); eauto). stp. eapply IH; eauto using answers_tl.
                + answered ltac:(eapply (proj1 B4); eauto). stp. answered ltac:(eapply (proj1 B5); eauto). stp.
                  destruct (IH d _ R RZ LT GD CL CK Pk PL RC' (answers_tl _ _ _ _ AN) TL) as (o & t1 & A1 & R1 & RZ9 & O1 & O2). exists o, t1. split; [exact A1|].
                  destruct TL as [T|T].
                  * specialize (O1 T). destruct o as [[|v [|]]|]; try contradiction. since R1 LO. stp. destruct (B6 x v) as (w & t2 & A2 & G2 & P2). carry G2.
                    exists (RVals [w]), t2. split; auto. split; auto. split; auto. split; [intros _; eapply list_at_cons; eauto|]. subst t. intros [_ N]; congruence.
                  * rewrite (O2 T). split; auto. split; auto. split; [intros ->; destruct T; congruence|auto]. }
            stp.
            assert (AN : answers (heap_of so) key xs) by (destruct TL as [[_ A]|[_ A]]; [apply A; now left|exact A]).
            assert (TT : t = VNull \/ odd_tail (heap_of so) t) by tauto.
            destruct (INNER xs l s5 R (grows_refl s5) LT GD CL2 C1 Pk eq_refl RC AN TT) as (o & s9 & A9 & R9 & RZ9 & O1 & O2). exists o, s9. split; [exact A9|].
            destruct TL as [[T AA]|[T _]].
            * specialize (O1 T). destruct o as [[|v [|]]|]; try contradiction. carry RZ9. stp. eapply runap_imp.
              { eapply (IH kd (List.filter (fun x => negb (same (heap_of so) x key)) xs) v s9); eauto.
                - subst t. now apply reach_list.
                - left. split; auto. intros k' I'. apply answers_filter. apply AA. now right. }
              unfold Q. intros o' s' (G' & O1' & O2'). rewrite <- kept_cons. auto.
            * rewrite (O2 T). split; auto. split; [intros ->; destruct T; congruence|auto]. }
      stp. eapply LOOP; eauto. }
    split; [|split; [|split]].
    - intros k ks l xs HK H ST. destruct (ALL k ks l xs VNull HK (reach_list _ _ _ H) (or_introl (conj eq_refl ST))) as (o & s1 & A & G & O1 & _).
      specialize (O1 eq_refl). destruct o as [[|v [|]]|]; try contradiction. exists v, s1. auto.
    - intros k ks t l RK TK NL. apply raises_run. eapply runap_clo2; [exact P|eapply reach_bound; eauto using odd_bound|exact NL|]. intros s1 b c G1 _ _ C1 C2. carry G1. stp.
      answered ltac:(eapply (proj2 B); eauto). cbn [truthy]. apply run_let0. stp.
      assert (E : add_cells [] s = s) by (destruct s; cbn; unfold add_cells; cbn; now rewrite app_nil_r). rewrite E. stp.
      eapply runap_raises; [apply B0|]. rewrite lit_sym. intros s4 G4. carry G4. auto.
    - intros k key ks l xs t HK H TT ST. destruct (ALL k (key :: ks) l xs t HK H (or_intror (conj TT ST))) as (o & s' & A & G & _ & O2). apply raises_run. exists o, s'. auto.
    - intros l NL. apply returns_run. eapply runap_clo2; [exact P|discriminate|exact NL|]. intros s1 b c G1 _ _ C1 C2. carry G1. stp.
      answered ltac:(eapply (proj1 B); constructor). cbn [truthy]. stp. answered ltac:(apply B0). enter. stp.
      eapply runap_clo2; [exact PL|discriminate|exact NL|]. intros s4 b1 c1 G4 _ _ C3 C4. carry G4. stp. answered ltac:(apply null_yes; auto). cbn [truthy]. stp. auto.
  Qed.

  (** *** Procedures as arguments *)
  Ltac carryw AC GD G :=
    repeat match type of G with grows ?a ?b =>
      match goal with
      | H : held ?n ?W ?o ?w ?w1 ?z a |- _ => apply (fun K => held_trans n W o w w1 w1 z a b K (held_grows n W o w1 a b GD G)) in H
      | H : ?I ?w a |- _ => apply (fun K => acts_grows _ _ _ _ _ _ _ AC w a b K G) in H
      end end; carry G.
  Ltac answeredw AC GD t :=
    eapply runap_returns; [t|]; let s := fresh "s" in let G := fresh "G" in intros s G; carryw AC GD G; clear G; cbv beta iota.
  Ltac enterw AC GD := apply runseq_one; eapply run_loop; [assumption|];
    let lp := fresh "lp" in let s := fresh "s" in let G := fresh "G" in let CL := fresh "CL" in let PL := fresh "PL" in
    intros lp s G CL PL;
    match type of CL with cell_is _ (List.length (cells_of ?z)) _ => let i := fresh "i" in let BI := fresh "BI" in
      assert (BI : List.length (cells_of z) <= List.length (cells_of z)) by apply le_n;
      set (i := List.length (cells_of z)) in BI at 2, CL, PL |- *; clearbody i end; carryw AC GD G.
  Lemma runs_run s p vs (Q : val -> store -> Prop) :
    runap prim s p vs (fun o s' => exists v, o = RVals [v] /\ Q v s') -> runs_to prim s p vs Q.
  Proof. intros (o & s' & A & v & -> & H). exists v, s'. auto. Qed.
  Section Given.
    Variables (f : val) (World : Type) (inv : World -> store -> Prop) (owns : World -> nat -> Prop) (step : World -> list val -> val -> World -> Prop).
    Hypothesis AC : acts names prim f World inv owns step.
    Local Notation held := (held names World owns).
    Lemma given_call w vs v w' s (Q : res -> store -> Prop) :
      step w vs v w' -> inv w s -> good s -> (forall s', held w w' s s' -> inv w' s' -> Q (RVals [v]) s') -> runap prim s f vs Q.
    Proof.
      intros ST IV GD H. destruct (acts_call _ _ _ _ _ _ _ AC _ _ _ _ _ ST IV GD) as (s1 & A & I1 & G1 & L1 & K1 & N1 & C1 & O1).
      exists (RVals [v]), s1. split; auto. apply H; auto. split; [exact L1|]. split; [exact G1|]. split; [exact K1|]. auto.
    Qed.
    Lemma fresh_cell w s i : inv w s -> List.length (cells_of s) <= i -> ~ owns w i.
    Proof. intros IV L O. pose proof (acts_old _ _ _ _ _ _ _ AC _ _ _ IV O). lia. Qed.
  End Given.


  (** What holds after a call of the given procedure. *)
  Ltac carryk K :=
    match type of K with LibTextProofs.held ?n ?W ?o ?w ?w1 ?a ?b =>
      repeat match goal with
      | H : list_at (heap_of a) _ _ |- _ => apply (held_list n W o w w1 a b _ _ K) in H
      | H : pair_at (heap_of a) _ = Some _ |- _ => apply (held_pair n W o w w1 a b _ _ _ K) in H
      | H : proc_at _ (procs_of a) = Some _ |- _ => apply (held_proc n W o w w1 a b _ _ K) in H
      | H : LibTextProofs.later n ?z a |- _ => apply (fun L => later_trans n _ _ _ L (proj1 K)) in H
      | H : good a |- _ => clear H; pose proof (proj1 (proj2 K))
      | H : LibTextProofs.held n W o ?w0 w ?z a |- _ => apply (fun L => held_trans n W o w0 w w1 z a b L K) in H
      | H : cell_is a ?i ?v, N : ~ o w ?i |- _ => 
          let H1 := fresh "C" in let H2 := fresh "O" in destruct (held_cell n W o w w1 a b i v K N H) as [H1 H2]; clear H; try clear N
      end
    end.

  Lemma foldl_ok : loaded lit s0 foldl_text -> has "foldl" (is_foldl names prim).
  Proof.
    intros LD. from_text LD. intros so p LT GD P. intros f World inv owns step AC NF w a l xs b w' NA IV H FO.
    assert (KH := held_refl names World owns w so GD). assert (IO := fun j => fresh_cell f World inv owns step AC w so j IV). apply runs_run.
    eapply runap_clo3; [exact P|exact NF|exact NA|eapply list_bound; eauto|]. intros s1 cf ca cl G1 Lf La Ll C1 C2 C3.
    pose proof (grows_len _ _ G1) as LEN. carryw AC GD G1.
    enterw AC GD. assert (OI : ~ owns w i) by (apply IO; lia). assert (OF : ~ owns w cf) by (apply IO; lia). assert (OL : ~ owns w cl) by (apply IO; lia).
    assert (LOOP : forall xs y w a z, inv w z -> later s0 z -> good z -> cell_is z i lp -> cell_is z cf f -> ~ owns w i -> ~ owns w cf -> a <> VUnbound ->
      proc_at lp (procs_of z) = proc_at lp (procs_of s) -> list_at (heap_of z) y xs -> folded step w a xs b w' ->
      runap prim z lp [y; a] (fun o s' => exists v, o = RVals [v] /\ v = b /\ inv w' s' /\ held names World owns w w' z s')).
    { rewrite PL. clear - HN HL Hnull Hpair Hcar Hcdr Hrae AC NF.
      induction xs as [|x xs IH]; intros y w a s IV LT GD CL CF OI OF NA PL RC FO.
      - inversion RC; inversion FO; subst. assert (KH := held_refl names World owns w' s GD).
        eapply runap_clo2; [exact PL|discriminate|exact NA|]. intros s1 c1 c2 G1 _ _ C1 C2. carryw AC GD G1. stp. answeredw AC GD ltac:(apply null_yes; auto). cbn [truthy]. stp.
        eauto.
      - apply list_uncons in RC. destruct RC as (d0 & Pv & RC'). inversion FO as [|? ? ? ? b1 w1 ? ? ST NB FO']; subst.
        assert (KH := held_refl names World owns w s GD). 
        eapply runap_clo2; [exact PL|eapply pair_bound; eauto|exact NA|]. intros s1 c1 c2 G1 L1 L2 C1 C2.
        assert (O1 : ~ owns w c1) by (eapply fresh_cell; eauto). assert (O2 : ~ owns w c2) by (eapply fresh_cell; eauto).
        carryw AC GD G1. stp.
        answeredw AC GD ltac:(eapply null_no; eauto using pair_null). cbn [truthy]. stp. answeredw AC GD ltac:(eapply pair_yes; eauto). cbn [truthy]. stp.
        answeredw AC GD ltac:(eapply (proj1 B1); eauto). stp. answeredw AC GD ltac:(eapply (proj1 B2); eauto). stp.
        eapply given_call; eauto. intros s6 K6 I6. carryk K6. cbv beta iota. stp.
        eapply runap_imp; [eapply (IH d0 w1 b1); eauto|]. intros o s9 (v & -> & -> & I9 & K9). exists b. split; auto. split; auto. split; auto. eapply held_trans; eauto. }
    stp. eapply runap_imp; [eapply (LOOP xs l w a); eauto|]. intros o s9 (v & -> & -> & I9 & K9). exists b. split; auto. split; auto. split; auto.
    pose proof (held_trans _ _ _ _ _ _ _ _ _ KH K9) as K. split; apply K.
  Qed.

  Lemma foldr_ok : loaded lit s0 foldr_text -> has "foldr" (is_foldr names prim).
  Proof.
    intros LD. from_text LD. intros so p LT GD P. intros f World inv owns step AC NF w a l xs b w' NA IV H FO.
    assert (KH := held_refl names World owns w so GD). assert (IO := fun j => fresh_cell f World inv owns step AC w so j IV). apply runs_run.
    eapply runap_clo3; [exact P|exact NF|exact NA|eapply list_bound; eauto|]. intros s1 cf ca cl G1 Lf La Ll C1 C2 C3.
    pose proof (grows_len _ _ G1) as LEN. carryw AC GD G1.
    enterw AC GD. assert (OI : ~ owns w i) by (apply IO; lia). assert (OF : ~ owns w cf) by (apply IO; lia). assert (OA : ~ owns w ca) by (apply IO; lia).
    assert (LOOP : forall xs y w b w' z, inv w z -> later s0 z -> good z -> cell_is z i lp -> cell_is z cf f -> cell_is z ca a -> ~ owns w i -> ~ owns w cf -> ~ owns w ca ->
      proc_at lp (procs_of z) = proc_at lp (procs_of s) -> list_at (heap_of z) y xs -> folded_right step w a xs b w' ->
      runap prim z lp [y] (fun o s' => exists v, o = RVals [v] /\ v = b /\ inv w' s' /\ held names World owns w w' z s')).
    { rewrite PL. clear - HN HL Hnull Hpair Hcar Hcdr Hrae AC NF.
      induction xs as [|x xs IH]; intros y w b w' s IV LT GD CL CF CA OI OF OA PL RC FO.
      - inversion RC; inversion FO; subst. assert (KH := held_refl names World owns w' s GD).
        eapply runap_clo1; [exact PL|discriminate|]. intros s1 c1 G1 _ C1. carryw AC GD G1. stp. answeredw AC GD ltac:(apply null_yes; auto). cbn [truthy]. stp.
        eauto.
      - apply list_uncons in RC. destruct RC as (d0 & Pv & RC'). inversion FO as [|? ? ? ? b1 w1 ? ? FO' ST]; subst.
        assert (KH := held_refl names World owns w s GD). 
        eapply runap_clo1; [exact PL|eapply pair_bound; eauto|]. intros s1 c1 G1 L1 C1.
        assert (O1 : ~ owns w c1) by (eapply fresh_cell; eauto).
        carryw AC GD G1. stp.
        answeredw AC GD ltac:(eapply null_no; eauto using pair_null). cbn [truthy]. stp. answeredw AC GD ltac:(eapply pair_yes; eauto). cbn [truthy]. stp.
        answeredw AC GD ltac:(eapply (proj1 B1); eauto). stp.
        eapply runap_imp; [eapply (IH d0 w b1 w1); eauto|]. intros o s9 (v & -> & -> & I9 & K9). carryk K9. cbv beta iota. stp.
        assert (GD9 : good s9) by assumption. answeredw AC GD9 ltac:(eapply (proj1 B2); eauto). stp.
        eapply given_call; eauto. intros s6 K6 I6. exists b. split; auto. split; auto. split; auto. eapply held_trans; eauto. }
    stp. eapply runap_imp; [eapply (LOOP xs l w b w'); eauto|]. intros o s9 (v & -> & -> & I9 & K9). exists b. split; auto. split; auto. split; auto.
    pose proof (held_trans _ _ _ _ _ _ _ _ _ KH K9) as K. split; apply K.
  Qed.

  Lemma filter_ok : loaded lit s0 filter_text -> has "filter" (is_filter names prim).
  Proof.
    intros LD. from_text LD. intros so p LT GD P. intros f World inv owns step AC NF w l xs ys w' IV H FO.
    assert (KH := held_refl names World owns w so GD). assert (IO := fun j => fresh_cell f World inv owns step AC w so j IV). apply runs_run.
    eapply runap_clo2; [exact P|exact NF|eapply list_bound; eauto|]. intros s1 cf cl G1 Lf Ll C1 C2.
    pose proof (grows_len _ _ G1) as LEN. carryw AC GD G1.
    enterw AC GD. assert (OI : ~ owns w i) by (apply IO; lia). assert (OF : ~ owns w cf) by (apply IO; lia).
    assert (LOOP : forall xs y w va acc ys z, inv w z -> later s0 z -> good z -> cell_is z i lp -> cell_is z cf f -> ~ owns w i -> ~ owns w cf ->
      proc_at lp (procs_of z) = proc_at lp (procs_of s) -> list_at (heap_of z) y xs -> list_at (heap_of z) va acc -> asked step w xs ys w' ->
      runap prim z lp [y; va] (fun o s' => exists v, o = RVals [v] /\ list_at (heap_of s') v (rev acc ++ ys) /\ inv w' s' /\ held names World owns w w' z s')).
    { rewrite PL. clear - HN HL Hnull Hpair Hcar Hcdr Hrae Hcons Hrev AC NF.
      induction xs as [|x xs IH]; intros y w va acc ys s IV LT GD CL CF OI OF PL RC RA FO.
      - inversion RC; inversion FO; subst. assert (KH := held_refl names World owns w' s GD).
        eapply runap_clo2; [exact PL|discriminate|eapply list_bound; eauto|]. intros s1 c1 c2 G1 _ _ C1 C2. carryw AC GD G1. stp. answeredw AC GD ltac:(apply null_yes; auto). cbn [truthy]. stp.
        destruct (proj1 B0 _ _ RA) as (u & s4 & A4 & G4 & L4). exists (RVals [u]), s4. split; [exact A4|]. carryw AC GD G4. exists u. rewrite app_nil_r. auto.
      - apply list_uncons in RC. destruct RC as (d0 & Pv & RC'). inversion FO as [|? ? ? v1 w1 ys1 ? ST FO']; subst.
        assert (KH := held_refl names World owns w s GD). 
        eapply runap_clo2; [exact PL|eapply pair_bound; eauto|eapply list_bound; eauto|]. intros s1 c1 c2 G1 L1 L2 C1 C2.
        assert (O1 : ~ owns w c1) by (eapply fresh_cell; eauto). assert (O2 : ~ owns w c2) by (eapply fresh_cell; eauto).
        carryw AC GD G1. stp.
        answeredw AC GD ltac:(eapply null_no; eauto using pair_null). cbn [truthy]. stp. answeredw AC GD ltac:(eapply pair_yes; eauto). cbn [truthy]. stp.
        answeredw AC GD ltac:(eapply (proj1 B1); eauto). stp.
        eapply given_call; eauto. intros s6 K6 I6. carryk K6. cbv beta iota. assert (GD6 : good s6) by assumption.
        destruct (truthy v1); stp.
        + answeredw AC GD6 ltac:(eapply (proj1 B2); eauto). stp. answeredw AC GD6 ltac:(eapply (proj1 B3); eauto). stp.
          destruct (B4 x va) as (u & s8 & A8 & G8 & L8). exists (RVals [u]), s8. split; [exact A8|]. carryw AC GD6 G8. stp.
          eapply runap_imp; [eapply (IH d0 w1 u (x :: acc) ys1); eauto using list_at_cons|]. intros o s9 (v & -> & LV & I9 & K9). exists v. split; auto.
          cbn [rev] in LV. rewrite <- app_assoc in LV. split; auto. split; auto. eapply held_trans; eauto.
        + answeredw AC GD6 ltac:(eapply (proj1 B2); eauto). stp. 
          eapply runap_imp; [eapply (IH d0 w1 va acc ys1); eauto|]. intros o s9 (v & -> & LV & I9 & K9). exists v. split; auto.
          split; auto. split; auto. eapply held_trans; eauto. }
    stp. rewrite lit_null. eapply runap_imp; [eapply (LOOP xs l w VNull [] ys); eauto; constructor|]. intros o s9 (v & -> & LV & I9 & K9). exists v. split; auto. split; auto. split; auto.
    pose proof (held_trans _ _ _ _ _ _ _ _ _ KH K9) as K. split; apply K.
  Qed.
End Text.
