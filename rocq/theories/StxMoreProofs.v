(** What stx-vector?, stx-null/#f and stx->list are to do, and running their text. *)
From Coq Require Import ZArith NArith Bool Ascii String List Arith Lia.
From Verif Require Import Base Heap HeapM Ast Sem Check Lists SimLemmas LibText LibTextProofs LibTextRun PathTextProofs PathTextRun StxText StxTextProofs
  StxSplitProofs StxMore.
Import ListNotations.
Local Open Scope list_scope.

(** ** Specification *)
Definition vectorp (h : heap) (v : val) : bool :=
  match v with VEmptyVec => true | VPtr l => match nth_error h l with Some (CVec _) => true | _ => false end | _ => false end.
Definition more_base : list string := ["vector?"; "null"; "andmap"]%string.
Definition more_names : list string := stx_names ++ more_base ++ ["stx-vector?"; "stx-null/#f"; "stx->list"]%string.

Section Spec.
  Variable prim : N -> list val -> heap -> option presult.
  Local Notation returns := (returns prim).
  (** *** What the texts rely on *)
  Definition is_vector (s : store) f := forall v, returns s f [v] (of_bool (vectorp (heap_of s) v)).
  (** andmap, for a predicate that answers by #t and #f and changes nothing. *)
  Definition is_andmap (s : store) f :=
    forall g l xs (p : val -> bool), g <> VUnbound -> list_at (heap_of s) l xs ->
      (forall s1 x, grows s s1 -> In x xs -> returns s1 g [x] (of_bool (p x))) -> returns s f [g; l] (of_bool (forallb p xs)).
  (** *** What the texts are to do *)
  Definition is_stx_vector (s : store) f := forall v, alive (heap_of s) v -> returns s f [v] (of_bool (vectorp (heap_of s) (inside (heap_of s) v))).
  Definition is_stx_null_f (s : store) f :=
    forall v, alive (heap_of s) v -> returns s f [v] (if nullp (inside (heap_of s) v) then VNull else VFalse).
  (** The list in a syntax object, whatever its elements are; a list of nothing but syntax
      objects itself; #f for everything else. *)
  Definition is_stx_to_list (s : store) f :=
    (forall v e xs, alive (heap_of s) v -> datum (heap_of s) v = Some e -> list_at (heap_of s) e xs -> returns s f [v] e) /\
    (forall v e xs t, alive (heap_of s) v -> datum (heap_of s) v = Some e -> reach (heap_of s) e xs t -> odd_tail (heap_of s) t -> returns s f [v] VFalse) /\
    (forall v xs, alive (heap_of s) v -> datum (heap_of s) v = None -> list_at (heap_of s) v xs -> Forall (live (heap_of s)) xs ->
       returns s f [v] (if forallb (syntaxp (heap_of s)) xs then v else VFalse)) /\
    (forall v xs t, alive (heap_of s) v -> datum (heap_of s) v = None -> reach (heap_of s) v xs t -> odd_tail (heap_of s) t -> returns s f [v] VFalse).
End Spec.

Lemma kept_vectorp s s' v : grows s s' -> live (heap_of s) v -> vectorp (heap_of s') v = vectorp (heap_of s) v.
Proof. intros G. destruct v; cbn; auto. intros L. now rewrite (live_cell _ _ G). Qed.
Lemma syntax_no_vector h v e : datum h v = Some e -> vectorp h v = false.
Proof. destruct v; try discriminate. cbn. destruct (nth_error h l) as [[]|]; congruence. Qed.

Section Text.
  Variable names : list string.
  Hypothesis HN : incl more_names names.
  Variable prim : N -> list val -> heap -> option presult.
  Variable complaint : val -> val -> err.
  Variable lit : obj -> val.
  Hypothesis HL : literals lit.
  Hypothesis HT : lit OTrue = VTrue.
  Variable s0 : store.
  Local Notation has := (has names s0).
  Local Notation later := (later names).
  Lemma more_name x : existsb (String.eqb x) more_names = true -> In x names.
  Proof. intros H. apply HN. apply existsb_exists in H. destruct H as (y & I & E). apply String.eqb_eq in E. now subst. Qed.
  Ltac nm := apply more_name; reflexivity.
  Ltac stp := repeat lib_step nm.
  Ltac from_text LD :=
    match type of LD with loaded _ _ ?t =>
      let e := eval vm_compute in (code_of lit t) in
      match e with EDefine [Id ?x] (ELam ?fm ?body) =>
        apply (loaded_is names lit s0 t x fm body); [vm_cast_no_check (eq_refl e)|exact LD|]
      end
    end.
  Ltac lits := rewrite ?HT, ?(proj1 (proj2 HL)), ?(proj2 (proj2 (proj2 HL))).
  Ltac one AL := eapply runap_clo1; [eassumption|first [exact (live_bound _ _ (proj1 AL))|assumption]|]; let s := fresh "s" in let b := fresh "b" in let G := fresh "G" in let C := fresh "C" in
    intros s b G _ C; pcarry G; clear G; stp.

  Hypothesis Hsyntax : has "syntax?" (is_syntax prim).
  Hypothesis Hsyntax_e : has "syntax-e" (is_syntax_e prim complaint).
  Hypothesis Hnull : has "null?" (is_null prim).
  Hypothesis Hlist : has "list?" (is_list prim).
  Hypothesis Hvector : has "vector?" (is_vector prim).
  Hypothesis Handmap : has "andmap" (is_andmap prim).
  Hypothesis Hempty : has "null" is_empty.
  Hypothesis Hstx_list : has "stx-list?" (is_stx_list prim).
  Ltac empty := eapply run_global; [exact Hempty|reflexivity|nm|eassumption|];
    let e := fresh "e" in let E := fresh "E" in intros e _ E; rewrite (E _ ltac:(eassumption) ltac:(eassumption)) in *; clear e E; cbv beta iota.
  Lemma vector_then so s f v : is_vector prim s f -> grows so s -> live (heap_of so) v -> returns prim s f [v] (of_bool (vectorp (heap_of so) v)).
  Proof. intros B G L. rewrite <- (kept_vectorp _ _ v G L). apply B. Qed.

  Lemma stx_vector_ok : loaded lit s0 stx_vector_text -> has "stx-vector?" (is_stx_vector prim).
  Proof.
    intros LD. from_text LD. intros so f LT GD P. assert (R := grows_refl so). intros v AL. apply returns_run. one AL.
    replied ltac:(eapply vector_then; [exact B|exact R|apply AL]). destruct (datum (heap_of so) v) as [e|] eqn:E.
    - rewrite (syntax_no_vector _ _ _ E). cbn [of_bool truthy]. stp. replied ltac:(eapply syntax_then; [exact B0|exact R|apply AL]).
      unfold syntaxp. rewrite E. cbn [of_bool truthy]. stp. replied ltac:(eapply datum_then; [exact B1|exact R|apply AL|exact E]). stp.
      destruct (inside_syntax _ _ _ E) as (EI & _). replied ltac:(eapply vector_then; [exact B2|exact R|rewrite <- EI; apply AL]). rewrite EI. auto.
    - unfold inside. rewrite E. destruct (vectorp (heap_of so) v); cbn [of_bool truthy]; stp; lits; auto.
      replied ltac:(eapply syntax_then; [exact B0|exact R|apply AL]). unfold syntaxp. rewrite E. cbn [of_bool truthy]. stp. lits. auto.
  Qed.
  Lemma stx_null_f_ok : loaded lit s0 stx_null_f_text -> has "stx-null/#f" (is_stx_null_f prim).
  Proof.
    intros LD. from_text LD. intros so f LT GD P. assert (R := grows_refl so). intros v AL. apply returns_run. one AL.
    replied ltac:(apply B). destruct (datum (heap_of so) v) as [e|] eqn:E.
    - destruct (inside_syntax _ _ _ E) as (EI & _ & NN). rewrite NN. cbn [of_bool truthy]. stp. replied ltac:(eapply syntax_then; [exact B0|exact R|apply AL]).
      unfold syntaxp. rewrite E. cbn [of_bool truthy]. stp. replied ltac:(eapply datum_then; [exact B1|exact R|apply AL|exact E]). stp.
      replied ltac:(apply B2). rewrite EI. destruct (nullp e); cbn [of_bool truthy]; [empty|stp; lits]; auto.
    - unfold inside. rewrite E. destruct (nullp v); cbn [of_bool truthy]; [empty; auto|]. stp.
      replied ltac:(eapply syntax_then; [exact B0|exact R|apply AL]). unfold syntaxp. rewrite E. cbn [of_bool truthy]. stp. lits. auto.
  Qed.
  Lemma stx_to_list_ok : loaded lit s0 stx_to_list_text -> has "stx->list" (is_stx_to_list prim).
  Proof.
    intros LD. from_text LD. intros so f LT GD P. assert (R := grows_refl so). split; [|split; [|split]].
    - intros v e xs AL E LA. apply returns_run. destruct (inside_syntax _ _ _ E) as (EI & _). one AL.
      replied ltac:(eapply syntax_then; [exact B|exact R|apply AL]). unfold syntaxp. rewrite E. cbn [of_bool truthy]. stp.
      replied ltac:(eapply (proj1 B0); [exact (kept_alive _ _ R _ AL)|rewrite (kept_inside _ _ R) by apply AL; rewrite EI; eassumption]). cbn [truthy]. stp.
      replied ltac:(eapply datum_then; [exact B1|exact R|apply AL|exact E]). auto.
    - intros v e xs t AL E RC OT. apply returns_run. destruct (inside_syntax _ _ _ E) as (EI & _). one AL.
      replied ltac:(eapply syntax_then; [exact B|exact R|apply AL]). unfold syntaxp. rewrite E. cbn [of_bool truthy]. stp.
      replied ltac:(eapply (proj2 B0); [exact (kept_alive _ _ R _ AL)|rewrite (kept_inside _ _ R) by apply AL; rewrite EI; eassumption|eassumption]). cbn [truthy]. stp.
      lits. auto.
    - intros v xs AL E LA LV. apply returns_run. one AL.
      replied ltac:(eapply syntax_then; [exact B|exact R|apply AL]). unfold syntaxp at 1. rewrite E. cbn [of_bool truthy]. stp.
      replied ltac:(eapply (proj1 B0); eassumption). cbn [truthy]. stp.
      apply run_lam; [assumption|]. intros lm sg Gg PG NG. pcarry Gg. cbv beta iota. stp.
      match goal with |- runap _ ?z ?h _ _ => assert (AM : returns prim z h [lm; v] (of_bool (forallb (syntaxp (heap_of so)) xs))) end.
      { apply B1; [exact NG|assumption|]. intros sa x G1 IX. rewrite Forall_forall in LV. specialize (LV x IX). apply returns_run.
        assert (R2 := grows_refl sa). pcarry G1. eapply runap_clo1; [eassumption|exact (live_bound _ _ LV)|]. intros sb c2 G2 _ C2. pcarry G2. stp.
        replied ltac:(eapply syntax_then; [eassumption|exact R|exact LV]). auto. }
      replied ltac:(exact AM).
      destruct (forallb (syntaxp (heap_of so)) xs); cbn [of_bool truthy]; stp; lits; auto.
    - intros v xs t AL E RC OT. apply returns_run. one AL.
      replied ltac:(eapply syntax_then; [exact B|exact R|apply AL]). unfold syntaxp. rewrite E. cbn [of_bool truthy]. stp.
      replied ltac:(eapply (proj2 B0); eassumption). cbn [truthy]. stp. lits. auto.
  Qed.
End Text.
