(** C85: what stx-vector?, stx-null/#f and stx->list do when their text is read, compiled and
    evaluated.  The specification is the first part of StxMoreProofs.v. *)
From Coq Require Import ZArith NArith Bool Ascii String List Arith Lia.
From Verif Require Import Base Heap HeapM Ast Reader Sem Check Lists SimLemmas LibText LibBoot LibTextProofs LibTextRun LibTextThm
  PathTextProofs PathTextRun StxText StxTextProofs StxTextThm StxSplitProofs StxMore StxMoreProofs.
Import ListNotations.
Local Open Scope list_scope.

(** The texts that must have been evaluated, in the order of the file. *)
Definition more_texts : list string := [stx_list_text; stx_vector_text; stx_null_f_text; stx_to_list_text].
Theorem C85_texts : map (nth_error boot_min) [66; 67; 71; 75] = map Some more_texts.
Proof. vm_compute. reflexivity. Qed.
Theorem C85_texts_read : Forall (fun t => exists o, read_object 400 (list_ascii_of_string t) = ROk o []) more_texts.
Proof. unfold more_texts. repeat constructor; eexists; vm_compute; reflexivity. Qed.

Record more_ready (prim : N -> list val -> heap -> option presult) (lit : obj -> val) (complaint : val -> val -> err) (s : store) : Prop := MoreReady {
  mr_literals : literals lit;
  mr_true : lit OTrue = VTrue;
  mr_loaded : Forall (loaded lit s) more_texts;
  mr_syntax : has more_names s "syntax?" (is_syntax prim);
  mr_syntax_e : has more_names s "syntax-e" (is_syntax_e prim complaint);
  mr_null : has more_names s "null?" (is_null prim);
  mr_list : has more_names s "list?" (is_list prim);
  mr_vector : has more_names s "vector?" (is_vector prim);
  mr_andmap : has more_names s "andmap" (is_andmap prim);
  mr_empty : has more_names s "null" is_empty }.

Section Ready.
  Variable prim : N -> list val -> heap -> option presult.
  Variable lit : obj -> val.
  Variable complaint : val -> val -> err.
  Variable s : store.
  Hypothesis RD : more_ready prim lit complaint s.
  Lemma more_loaded t : In t more_texts -> loaded lit s t.
  Proof. pose proof (mr_loaded _ _ _ _ RD) as F. rewrite Forall_forall in F. auto. Qed.
  Lemma more_incl : incl stx_names more_names.
  Proof. apply incl_appl, incl_refl. Qed.
  Ltac text := apply more_loaded; unfold more_texts; cbn [In]; repeat (first [left; reflexivity|right]).
  Ltac lib := first [apply more_incl|apply incl_refl|text|eapply RD|apply RD|eassumption].
  Theorem C85_stx_vector : has more_names s "stx-vector?" (is_stx_vector prim).
  Proof. eapply (stx_vector_ok more_names) with (lit := lit); lib. Qed.
  Theorem C85_stx_null_f : has more_names s "stx-null/#f" (is_stx_null_f prim).
  Proof. eapply (stx_null_f_ok more_names) with (lit := lit); lib. Qed.
  Theorem C85_stx_to_list : has more_names s "stx->list" (is_stx_to_list prim).
  Proof.
    assert (H : has more_names s "stx-list?" (is_stx_list prim)) by (eapply (stx_list_ok more_names) with (lit := lit); lib).
    eapply (stx_to_list_ok more_names) with (lit := lit); lib.
  Qed.

  (** One could expect that what stx->list returns is #f or a list of syntax objects.  It is not:
      the elements of a list in a syntax object are not looked at. *)
  Theorem C85_list_of_syntax_refuted z v e x xs :
    later more_names s z -> good z -> alive (heap_of z) v -> datum (heap_of z) v = Some e -> list_at (heap_of z) e (x :: xs) -> syntaxp (heap_of z) x = false ->
    exists f, glob_ref (Id "stx->list") (glob_of z) = Some f /\ returns prim z f [v] e.
  Proof.
    intros LT G AL E LA _. destruct C85_stx_to_list as (f & F1 & _ & F3). exists f. split; [rewrite (proj2 LT); auto; apply existsb_in; reflexivity|].
    exact (proj1 (F3 z LT G) v e _ AL E LA).
  Qed.
End Ready.

(** ** A store that meets the hypotheses *)
Definition mx_prim (n : N) (vs : list val) (h : heap) : option presult :=
  match n, vs with
  | 13%N, [v] => Some (PrimVal (of_bool (vectorp h v)) h)
  | _, _ => tx_prim n vs h
  end.
(** andmap as the prelude has it for one list (src/core/s/prelude.min:983-989), without the check of the
    arguments and with car and cdr for $car and $cdr. *)
Definition mx_andmap_text : string :=
  "(define-values (andmap) (lambda (pred? xs) (if (null? xs) #t (if (pred? (car xs)) (andmap pred? (cdr xs)) #f))))".
Definition mx_texts : list string := mx_andmap_text :: more_texts.
Definition mx_defined : list string := ["andmap"; "stx-list?"; "stx-vector?"; "stx-null/#f"; "stx->list"]%string.
Definition mx_before : store :=
  set_glob (Id "null") VNull (ex_install 0 (combine (stx_base ++ ["vector?"]%string) (tx_arities ++ [1])) (Store [] [] [] [])).
Lemma mx_good : good mx_before.
Proof.
  intros l p H. assert (K : forall ps, proc_ref l ps = Some p -> In l (map fst ps)).
  { induction ps as [|[k q] ps IH]; cbn; [discriminate|]. destruct (Nat.eqb_spec k l); auto. }
  apply K in H. revert H. vm_compute. intuition lia.
Qed.
Lemma mx_shaped : Forall2 (shaped tx_lit) mx_texts mx_defined.
Proof.
  unfold mx_texts, more_texts, mx_defined.
  repeat match goal with
  | |- Forall2 _ [] [] => constructor
  | |- Forall2 _ (?t :: _) _ =>
      constructor; [let e := eval vm_compute in (code_of tx_lit t) in
        match e with EDefine _ (ELam ?fm ?body) => exists fm, body; vm_cast_no_check (eq_refl e) end|]
  end.
Qed.
Lemma mx_once : NoDup mx_defined.
Proof. apply distinct_nodup. reflexivity. Qed.
Lemma mx_has s x l n k (B : store -> val -> Prop) :
  loads mx_prim tx_lit mx_before mx_texts s -> existsb (String.eqb x) mx_defined = false ->
  glob_ref (Id x) (glob_of mx_before) = Some (VPtr l) -> proc_ref l (procs_of mx_before) = Some (PPrim n k) ->
  (forall z, good z -> proc_at (VPtr l) (procs_of z) = Some (PPrim n k) -> B z (VPtr l)) -> has more_names s x B.
Proof.
  intros L I E Q H.
  destruct (loads_all mx_prim tx_lit (fun _ _ => ErrNotProc VNull) (fun _ _ => ErrNotProc VNull) _ _ mx_shaped mx_once _ _ mx_good L) as (_ & I2 & I3 & _).
  exists (VPtr l). split; [rewrite I3; auto|].
  - intros J. assert (T : existsb (String.eqb x) mx_defined = true) by (apply existsb_exists; exists x; split; auto; apply String.eqb_refl). congruence.
  - split; [discriminate|]. intros z [L1 _] G. apply H; auto. now apply L1, I2.
Qed.
Lemma mx_value s f n vs v :
  proc_at f (procs_of s) = Some (PPrim n (List.length vs)) -> List.length vs <= 6 -> mx_prim n vs (heap_of s) = Some (PrimVal v (heap_of s)) ->
  returns mx_prim s f vs v.
Proof. intros P L E. exists (set_heap (heap_of s) s). split; [eapply ApPrim; eauto|apply grows_set_heap, extends_refl]. Qed.
Lemma mx_raises s f n vs e :
  proc_at f (procs_of s) = Some (PPrim n (List.length vs)) -> List.length vs <= 6 -> mx_prim n vs (heap_of s) = Some (PrimErr e (heap_of s)) ->
  raises mx_prim s f vs (ErrPrim e).
Proof. intros P L E. exists (set_heap (heap_of s) s). split; [eapply ApPrimErr; eauto|apply grows_set_heap, extends_refl]. Qed.
Lemma mx_null s : loads mx_prim tx_lit mx_before mx_texts s -> has more_names s "null" is_empty.
Proof.
  intros L. destruct (loads_all mx_prim tx_lit (fun _ _ => ErrNotProc VNull) (fun _ _ => ErrNotProc VNull) _ _ mx_shaped mx_once _ _ mx_good L) as (_ & _ & I3 & _).
  exists VNull. split; [rewrite I3; [vm_compute; reflexivity|cbn; intuition discriminate]|]. split; [discriminate|reflexivity].
Qed.
(** This andmap does what is asked of one. *)
Lemma mx_andmap s : loaded tx_lit s mx_andmap_text -> has more_names s "null?" (is_null mx_prim) ->
  has more_names s "car" (is_car mx_prim ex_complaint) -> has more_names s "cdr" (is_cdr mx_prim ex_complaint) -> has more_names s "andmap" (is_andmap mx_prim).
Proof.
  intros LD Hnull Hcar Hcdr.
  match type of LD with loaded _ _ ?t =>
    let e := eval vm_compute in (code_of tx_lit t) in
    match e with EDefine [Id ?x] (ELam ?fm ?body) =>
      assert (Hself : has more_names s "andmap" (fun z f => proc_at f (procs_of z) = Some (PClo [(fm, body)] [])));
      [apply (loaded_is more_names tx_lit s t x fm body); [vm_cast_no_check (eq_refl e)|exact LD|auto]|] end end.
  assert (ALL : forall xs z f g l (p : val -> bool), later more_names s z -> good z ->
    (exists fm body, code_of tx_lit mx_andmap_text = EDefine [Id "andmap"] (ELam fm body) /\ proc_at f (procs_of z) = Some (PClo [(fm, body)] [])) ->
    g <> VUnbound -> list_at (heap_of z) l xs ->
    (forall s1 x, grows z s1 -> In x xs -> returns mx_prim s1 g [x] (of_bool (p x))) -> returns mx_prim z f [g; l] (of_bool (forallb p xs))).
  { induction xs as [|x xs IH]; intros z f g l p LT GD (fm & body & E & P) NG LA HG; apply returns_run; vm_compute in E; injection E as <- <-; assert (R := grows_refl z).
    - inversion LA; subst. eapply runap_clo2; [exact P|exact NG|discriminate|]. intros s1 b c G1 _ _ C1 C2. pcarry G1.
      repeat lib_step ltac:(apply existsb_in; reflexivity). replied ltac:(apply B). cbn [nullp of_bool truthy]. repeat lib_step ltac:(apply existsb_in; reflexivity). auto.
    - destruct (list_pair _ _ _ _ LA) as (d & PA & LAD). eapply runap_clo2; [exact P|exact NG|eapply pair_bound; eauto|]. intros s1 b c G1 _ _ C1 C2. pcarry G1.
      repeat lib_step ltac:(apply existsb_in; reflexivity). replied ltac:(apply B). rewrite (pair_not_null _ _ _ _ PA). cbn [of_bool truthy].
      repeat lib_step ltac:(apply existsb_in; reflexivity). replied ltac:(eapply (proj1 B0); eassumption). repeat lib_step ltac:(apply existsb_in; reflexivity).
      replied ltac:(apply HG; [exact R|now left]). cbn [forallb]. destruct (p x); cbn [of_bool truthy andb]; repeat lib_step ltac:(apply existsb_in; reflexivity); auto.
      replied ltac:(eapply (proj1 B1); eassumption). repeat lib_step ltac:(apply existsb_in; reflexivity).
      match goal with |- runap _ ?y ?h _ _ => assert (AM : returns mx_prim y h [g; d] (of_bool (forallb p xs))) end.
      { eapply IH; eauto; [eexists _, _; split; [vm_compute; reflexivity|eassumption]|]. intros s9 x9 G9 I9. apply HG; [exact (grows_trans _ _ _ R G9)|now right]. }
      replied ltac:(exact AM). auto. }
  destruct Hself as (f & F1 & F2 & F3). exists f. split; auto. split; auto. intros z LT GD g l xs p NG LA HG. eapply ALL; eauto.
  eexists _, _. split; [vm_compute; reflexivity|]. exact (F3 z LT GD).
Qed.
Example more_ready_example : exists s, loads mx_prim tx_lit mx_before mx_texts s /\ good s /\ more_ready mx_prim tx_lit ex_complaint s.
Proof.
  destruct (loads_some mx_prim tx_lit _ _ mx_shaped mx_before) as [s L]. exists s. split; auto.
  destruct (loads_all mx_prim tx_lit (fun _ _ => ErrNotProc VNull) (fun _ _ => ErrNotProc VNull) _ _ mx_shaped mx_once _ _ mx_good L) as (G & _ & _ & F).
  split; auto. inversion F as [|? ? FA FM]; subst.
  assert (Hcar : has more_names s "car" (is_car mx_prim ex_complaint)).
  { apply (mx_has s "car" 9 9%N 1); [exact L|reflexivity|vm_compute; reflexivity|vm_compute; reflexivity|]. intros z GD P. split.
    + intros v a d E. eapply mx_value; [exact P|cbn; lia|]. cbn [mx_prim tx_prim]. now rewrite E.
    + intros v N. eapply mx_raises; [exact P|cbn; lia|]. cbn [mx_prim tx_prim]. now rewrite (no_pair_at _ _ N). }
  assert (Hcdr : has more_names s "cdr" (is_cdr mx_prim ex_complaint)).
  { apply (mx_has s "cdr" 10 10%N 1); [exact L|reflexivity|vm_compute; reflexivity|vm_compute; reflexivity|]. intros z GD P. split.
    + intros v a d E. eapply mx_value; [exact P|cbn; lia|]. cbn [mx_prim tx_prim]. now rewrite E.
    + intros v N. eapply mx_raises; [exact P|cbn; lia|]. cbn [mx_prim tx_prim]. now rewrite (no_pair_at _ _ N). }
  assert (Hnull : has more_names s "null?" (is_null mx_prim)).
  { apply (mx_has s "null?" 6 6%N 1); [exact L|reflexivity|vm_compute; reflexivity|vm_compute; reflexivity|]. intros z GD P v. eapply mx_value; [exact P|cbn; lia|reflexivity]. }
  constructor; auto; [repeat split| | | | |now apply mx_andmap|now apply mx_null]; match goal with |- has _ _ ?x _ =>
    let g := eval vm_compute in (glob_ref (Id x) (glob_of mx_before)) in
    match g with Some (VPtr ?l) => let p := eval vm_compute in (proc_ref l (procs_of mx_before)) in
      match p with Some (PPrim ?n ?k) => apply (mx_has s x l n k); [exact L|reflexivity|vm_compute; reflexivity|vm_compute; reflexivity|intros z GD P] end end end.
  all: try solve [intros v; eapply mx_value; [exact P|cbn; lia|reflexivity]].
  - split.
    + intros v e E. eapply mx_value; [exact P|cbn; lia|]. cbn [mx_prim tx_prim]. now rewrite E.
    + intros v _ E. eapply mx_raises; [exact P|cbn; lia|]. cbn [mx_prim tx_prim]. now rewrite E.
  - split.
    + intros l xs H. eapply mx_value; [exact P|cbn; lia|]. cbn [mx_prim tx_prim]. now rewrite (chain_list _ _ _ H).
    + intros l xs t R [T1 T2]. eapply mx_value; [exact P|cbn; lia|]. cbn [mx_prim tx_prim]. pose proof (no_pair_at _ _ T1) as E.
      rewrite (chain_reach _ _ _ _ R E) by (eapply reach_length; eauto). cbn [snd]. destruct t; auto. congruence.
Qed.
(** A syntax object around (7), made after the texts were evaluated: stx->list returns (7). *)
Example more_objects_example : exists s z v e f,
  more_ready mx_prim tx_lit ex_complaint s /\ later more_names s z /\ good z /\ datum (heap_of z) v = Some e /\ list_at (heap_of z) e [VFix 7] /\
  glob_ref (Id "stx->list") (glob_of z) = Some f /\ returns mx_prim z f [v] e.
Proof.
  destruct more_ready_example as (s & _ & G & RD). set (m := List.length (heap_of s)).
  set (cells := [CPair (VFix 7) VNull; CSyntax (VPtr m) VFalse]). set (z := set_heap (heap_of s ++ cells) s).
  assert (GR : grows s z) by apply grows_set_heap, extends_app.
  assert (AT : forall k, nth_error (heap_of z) (m + k) = nth_error cells k).
  { intros k. cbn. rewrite nth_error_app2 by (unfold m; lia). f_equal. unfold m. lia. }
  assert (A0 : nth_error (heap_of z) m = Some (CPair (VFix 7) VNull)) by (rewrite <- (Nat.add_0_r m) at 1; exact (AT 0)).
  pose proof (AT 1) as A1. assert (LT := grows_later more_names _ _ GR). assert (GZ := grows_good _ _ GR G).
  assert (D : datum (heap_of z) (VPtr (m + 1)) = Some (VPtr m)) by (unfold datum; now rewrite A1).
  assert (LA : list_at (heap_of z) (VPtr m) [VFix 7]) by (econstructor; [exact A0|constructor]).
  assert (AL : alive (heap_of z) (VPtr (m + 1))).
  { split; [|unfold inside; rewrite D]; cbn [live]; apply nth_error_Some; [rewrite A1|rewrite A0]; discriminate. }
  destruct (C85_list_of_syntax_refuted _ _ _ _ RD z _ _ _ _ LT GZ AL D LA eq_refl) as (f & F & A).
  exists s, z, (VPtr (m + 1)), (VPtr m), f. auto 10.
Qed.

(** The shared empty vector is a vector (src/core/c/global.c:102). *)
Example empty_vector h : vectorp h VEmptyVec = true.
Proof. reflexivity. Qed.

Print Assumptions C85_texts.
Print Assumptions C85_texts_read.
Print Assumptions C85_stx_vector.
Print Assumptions C85_stx_null_f.
Print Assumptions C85_stx_to_list.
Print Assumptions C85_list_of_syntax_refuted.
Print Assumptions more_ready_example.
Print Assumptions more_objects_example.
