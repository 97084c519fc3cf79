(** C82: what substring does when its text is read, compiled and evaluated, and the path
    procedures (C81) on top of it.  The specification is the first part of SubTextProofs.v. *)
From Coq Require Import ZArith NArith Bool Ascii String List Arith Lia.
From Verif Require Import Base Heap HeapM Ast Reader Sem Check Lists SimLemmas Path PathThm LibText LibBoot LibTextProofs LibTextRun LibTextThm
  PathText PathTextProofs PathTextRun PathTextThm SubText SubTextProofs.
Import ListNotations.
Local Open Scope list_scope.

(** The text is line 62 of the boot file, and is read to its end. *)
Theorem C82_text : nth_error boot_min 61 = Some substring_text.
Proof. vm_compute. reflexivity. Qed.
Theorem C82_text_read : exists o, read_object 400 (list_ascii_of_string substring_text) = ROk o [].
Proof. eexists. vm_compute. reflexivity. Qed.

(** What the text relies on. *)
Record sub_relies (names : list string) (prim : N -> list val -> heap -> option presult) (complaint : val -> val -> err) (range : list val -> err)
    (s : store) : Prop := SubRelies {
  sr_string : has names s "string?" (is_string prim);
  sr_length : has names s "string-length" (is_checked_length prim complaint);
  sr_ref : has names s "string-ref" (is_string_ref prim);
  sr_set : has names s "string-set!" (is_string_set prim);
  sr_make : has names s "make-string" (is_make_string prim);
  sr_index : has names s "non-negative-integer?" (is_index prim);
  sr_le : has names s "<=" (is_at_most prim);
  sr_same : has names s "=" (is_same_number prim);
  sr_sum : has names s "+" (is_sum prim);
  sr_minus : has names s "-" (is_minus prim);
  sr_void : has names s "void" (is_void prim);
  sr_complaint : has names s "raise-argument-error" (is_complaint prim complaint);
  sr_range : has names s "raise-range-error" (is_range_error prim range) }.
Theorem C82_substring names prim lit complaint range s :
  incl sub_names names -> literals lit -> loaded lit s substring_text -> sub_relies names prim complaint range s ->
  exists rre, glob_ref (Id "raise-range-error") (glob_of s) = Some rre /\ has names s "substring" (is_substring_proc prim complaint range lit rre).
Proof. intros HN HL LD SR. eapply (substring_ok names HN prim complaint range lit HL); solve [exact LD|apply SR]. Qed.

(** The path procedures, with the substring of the library and not any that meets a contract. *)
Definition string_names : list string := path_names ++ sub_names.
Record path_others (prim : N -> list val -> heap -> option presult) (complaint : val -> val -> err) (s : store) : Prop := PathOthers {
  po_append : has string_names s "string-append" (is_string_append prim);
  po_eq : has string_names s "eq?" (is_same_char prim);
  po_more : has string_names s ">" (is_more prim);
  po_null : has string_names s "null?" (is_null prim);
  po_pair : has string_names s "pair?" (is_pair prim);
  po_cons : has string_names s "cons" (is_cons prim);
  po_list : has string_names s "list" (is_list1 prim);
  po_apply : has string_names s "apply" (is_apply prim);
  po_car : has string_names s "car" (is_car prim complaint);
  po_cdr : has string_names s "cdr" (is_cdr prim complaint);
  po_reverse : has string_names s "reverse" (is_reverse prim complaint) }.
Record string_ready prim lit complaint range (s : store) : Prop := StringReady {
  sd_literals : literals lit;
  sd_chars : forall c, lit (OChar c) = VChar c;
  sd_loaded : Forall (loaded lit s) (path_texts ++ [substring_text]);
  sd_relies : sub_relies string_names prim complaint range s;
  sd_others : path_others prim complaint s }.
Lemma has_imp names s x (B C : store -> val -> Prop) : (forall z f, B z f -> C z f) -> has names s x B -> has names s x C.
Proof. intros H (f & G & N & K). exists f. auto. Qed.
Section Ready.
  Variable prim : N -> list val -> heap -> option presult.
  Variable lit : obj -> val.
  Variable complaint : val -> val -> err.
  Variable range : list val -> err.
  Variable s : store.
  Hypothesis RD : string_ready prim lit complaint range s.
  Lemma string_loaded t : In t (path_texts ++ [substring_text]) -> loaded lit s t.
  Proof. pose proof (sd_loaded _ _ _ _ _ RD) as F. rewrite Forall_forall in F. auto. Qed.
  Lemma ready_substring : has string_names s "substring" (is_substring prim).
  Proof.
    destruct (C82_substring string_names prim lit complaint range s) as (rre & _ & H).
    - apply incl_appr, incl_refl.
    - apply RD.
    - apply string_loaded, in_or_app. right. now left.
    - apply RD.
    - revert H. apply has_imp. intros z f H. apply H.
  Qed.
  Lemma ready_length : has string_names s "string-length" (is_string_length prim).
  Proof. eapply has_imp; [|apply (sr_length _ _ _ _ _ (sd_relies _ _ _ _ _ RD))]. intros z f H. apply H. Qed.
  Ltac text := apply string_loaded, in_or_app; left; unfold path_texts; cbn [In]; repeat (first [left; reflexivity|right]).
  Ltac lib := first [apply incl_appl, incl_refl|apply (sd_literals _ _ _ _ _ RD)|apply (sd_chars _ _ _ _ _ RD)|exact ready_substring|exact ready_length
    |text|apply (sd_relies _ _ _ _ _ RD)|apply (sd_others _ _ _ _ _ RD)|eassumption].
  Theorem C82_is_absolute : has string_names s "is-absolute-path?" (is_is_absolute prim).
  Proof. eapply (is_absolute_ok string_names) with (lit := lit); lib. Qed.
  Theorem C82_path_list : has string_names s "path->list" (is_path_list prim complaint lit).
  Proof. eapply (path_list_ok string_names) with (lit := lit); lib. Qed.
  Theorem C82_build_path : has string_names s "build-path" (is_build_path prim lit).
  Proof. eapply (build_path_ok string_names) with (lit := lit); lib. Qed.
  Theorem C82_split_path : has string_names s "split-path" (is_split_path prim complaint lit).
  Proof. eapply (split_path_ok string_names) with (lit := lit); first [exact C82_path_list|exact C82_build_path|lib]. Qed.
End Ready.

(** ** A store that meets the hypotheses *)
Definition sx_range (vs : list val) : err := ErrPrim (EOther "range" vs).
Definition sx_texts : list string := path_texts ++ [substring_text].
Definition sx_defined : list string := path_defined ++ ["substring"]%string.
Lemma sx_shaped : Forall2 (shaped px_lit) sx_texts sx_defined.
Proof.
  unfold sx_texts, sx_defined. apply Forall2_app; [exact px_shaped|]. constructor; [|constructor].
  let e := eval vm_compute in (code_of px_lit substring_text) in
  match e with EDefine _ (ELam ?fm ?body) => exists fm, body; vm_cast_no_check (eq_refl e) end.
Qed.
Lemma sx_once : NoDup sx_defined.
Proof. apply distinct_nodup. reflexivity. Qed.
Lemma sx_has s x l (B : store -> val -> Prop) :
  loads px_prim px_lit px_before sx_texts s -> existsb (String.eqb x) sx_defined = false ->
  glob_ref (Id x) (glob_of px_before) = Some (VPtr l) ->
  (forall z, good z -> (forall k p, proc_ref k (procs_of px_before) = Some p -> proc_ref k (procs_of z) = Some p) -> B z (VPtr l)) -> has string_names s x B.
Proof.
  intros L I E H.
  destruct (loads_all px_prim px_lit (fun _ _ => ErrNotProc VNull) (fun _ _ => ErrNotProc VNull) _ _ sx_shaped sx_once _ _ px_good L) as (_ & I2 & I3 & _).
  exists (VPtr l). split; [rewrite I3; auto|].
  - intros J. assert (T : existsb (String.eqb x) sx_defined = true) by (apply existsb_exists; exists x; split; auto; apply String.eqb_refl). congruence.
  - split; [discriminate|]. intros z [L1 _] G. apply H; auto.
Qed.
Ltac sx_start s L := constructor; match goal with |- has _ _ ?x _ =>
    let g := eval vm_compute in (glob_ref (Id x) (glob_of px_before)) in
    match g with Some (VPtr ?l) => apply (sx_has s x l); [exact L|reflexivity|vm_compute; reflexivity|let z := fresh "z" in let GD := fresh "GD" in let K := fresh "K" in intros z GD K;
      let p := eval vm_compute in (proc_ref l (procs_of px_before)) in
      match p with Some ?q => assert (P : proc_at (VPtr l) (procs_of z) = Some q) by (apply K; vm_compute; reflexivity) end] end end;
  try solve [intros v; eapply px_value; [eassumption|cbn; lia|reflexivity]
            |intros a b; eapply px_value; [eassumption|cbn; lia|reflexivity]
            |intros a b _ _; eapply px_value; [eassumption|cbn; lia|reflexivity]
            |intros a b _ _ _; eapply px_value; [eassumption|cbn; lia|reflexivity]].
Lemma sx_relies s : loads px_prim px_lit px_before sx_texts s -> sub_relies string_names px_prim ex_complaint sx_range s.
Proof.
  intros L. sx_start s L.
  - split.
    + intros v t T. eapply px_value; [exact P|cbn; lia|]. cbn [px_prim]. now rewrite (px_text_is _ _ _ T).
    + intros v N. eapply px_raises; [exact P|cbn; lia|]. cbn [px_prim]. destruct v; auto. destruct N as (c & E & N). cbn [px_text]. rewrite E.
      destruct c; auto. now destruct (N buf).
  - split.
    + intros v t n c T E. eapply px_value; [exact P|cbn; lia|]. cbn [px_prim]. rewrite (px_text_is _ _ _ T).
      destruct (Z.ltb_spec (Z.of_nat n) 0); [lia|]. now rewrite Nat2Z.id, E.
    + intros v t n T E. eexists. eapply px_raises; [exact P|cbn; lia|]. cbn [px_prim]. rewrite (px_text_is _ _ _ T).
      destruct (Z.ltb_spec n 0); [reflexivity|lia].
  - intros l b i c E N LI NC. exists VVoid. eexists. split.
    + eapply ApPrim; [exact P|cbn; lia|]. cbn [px_prim]. rewrite E, Nat2Z.id. reflexivity.
    + exists z. split; [apply grows_refl|reflexivity].
  - intros n LN. exists (List.length (heap_of z)), (repeat "a"%char n), (set_heap (heap_of z ++ [CStr (repeat "a"%char n)]) z).
    assert (E : px_prim 21 [VFix (Z.of_nat n)] (heap_of z) = Some (px_new (repeat "a"%char n) (heap_of z))) by (cbn [px_prim]; now rewrite Nat2Z.id).
    destruct (px_returns z _ 21 [VFix (Z.of_nat n)] _ _ P ltac:(cbn; lia) E (extends_app _ _)) as [A G]. split; auto. split; auto. split; auto.
    split; [cbn; now rewrite nth_error_app2, Nat.sub_diag by lia|]. split; [|apply repeat_length]. intros X. apply repeat_spec in X. discriminate X.
  - eapply px_value; [exact P|cbn; lia|reflexivity].
  - intros who what v. eapply px_raises; [exact P|cbn; lia|reflexivity].
  - intros vs. destruct (Nat.eqb_spec (List.length vs) 6) as [E|E].
    + eapply px_raises; [rewrite E; exact P|lia|reflexivity].
    + exists z. split; [eapply ApPrimArity; eauto|apply grows_refl].
Qed.
Lemma sx_others s : loads px_prim px_lit px_before sx_texts s -> path_others px_prim ex_complaint s.
Proof.
  intros L. sx_start s L.
  - eapply px_append_ok; [exact P|apply K; vm_compute; reflexivity].
  - intros a d. exists (VPtr (List.length (heap_of z))), (set_heap (heap_of z ++ [CPair a d]) z).
    destruct (px_returns z _ 14 [a; d] _ _ P ltac:(cbn; lia) eq_refl (extends_app _ _)) as [A B]. split; auto. split; auto.
    cbn. now rewrite nth_error_app2, Nat.sub_diag by lia.
  - intros v. eapply px_list; [exact P|cbn; lia|reflexivity].
  - now apply px_apply_ok.
  - split.
    + intros v a d E. eapply px_value; [exact P|cbn; lia|]. cbn [px_prim]. now rewrite E.
    + intros v N. eapply px_raises; [exact P|cbn; lia|]. cbn [px_prim]. now rewrite (no_pair_at _ _ N).
  - split.
    + intros v a d E. eapply px_value; [exact P|cbn; lia|]. cbn [px_prim]. now rewrite E.
    + intros v N. eapply px_raises; [exact P|cbn; lia|]. cbn [px_prim]. now rewrite (no_pair_at _ _ N).
  - split.
    + intros l xs H. eapply px_list; [exact P|cbn; lia|]. cbn [px_prim]. now rewrite (chain_list _ _ _ H).
    + intros v xs t R [T1 T2]. eapply px_raises; [exact P|cbn; lia|]. cbn [px_prim]. pose proof (no_pair_at _ _ T1) as E.
      rewrite (chain_reach _ _ _ _ R E) by (eapply reach_length; eauto). destruct t; auto; congruence.
Qed.
Example string_ready_example : exists s, loads px_prim px_lit px_before sx_texts s /\ good s /\ string_ready px_prim px_lit ex_complaint sx_range s.
Proof.
  destruct (loads_some px_prim px_lit _ _ sx_shaped px_before) as [s L]. exists s. split; auto.
  destruct (loads_all px_prim px_lit (fun _ _ => ErrNotProc VNull) (fun _ _ => ErrNotProc VNull) _ _ sx_shaped sx_once _ _ px_good L) as (G & _ & _ & F).
  split; auto. constructor; auto; [repeat split|now apply sx_relies|now apply sx_others].
Qed.
(** (substring "minim" 1 3) and (substring "minim" 3 1) in any later store that has this string. *)
Example substring_calls s z u :
  string_ready px_prim px_lit ex_complaint sx_range s -> later string_names s z -> good z -> text_at (heap_of z) u (list_ascii_of_string "minim") ->
  exists f rre, glob_ref (Id "substring") (glob_of z) = Some f /\ returns_text px_prim z f [u; VFix 1; VFix 3] (list_ascii_of_string "in") /\
    raises px_prim z f [u; VFix 3; VFix 1] (ErrArity rre 5).
Proof.
  intros RD LT G T. destruct (C82_substring string_names px_prim px_lit ex_complaint sx_range s) as (rre & _ & f & F1 & F2 & F3).
  - apply incl_appr, incl_refl.
  - apply RD.
  - eapply string_loaded; [exact RD|]. apply in_or_app. right. now left.
  - apply RD.
  - exists f, rre. rewrite (proj2 LT) by (apply in_or_app; left; apply path_name_in; reflexivity). split; auto.
    destruct (F3 z LT G) as (H1 & _ & _ & _ & H5 & _). split; [exact (H1 u _ 1 3 T ltac:(lia) ltac:(cbn; lia))|exact (H5 u _ 3 1 T ltac:(cbn; lia) ltac:(lia))].
Qed.

Print Assumptions C82_text.
Print Assumptions C82_text_read.
Print Assumptions C82_substring.
Print Assumptions C82_is_absolute.
Print Assumptions C82_path_list.
Print Assumptions C82_build_path.
Print Assumptions C82_split_path.
Print Assumptions string_ready_example.
