(** What the procedures for syntax objects are to do, and running their text. *)
From Coq Require Import ZArith NArith Bool Ascii String List Arith Lia.
From Verif Require Import Base Heap HeapM Ast Sem Check Lists SimLemmas LibText LibTextProofs LibTextRun PathTextProofs PathTextRun StxText.
Import ListNotations.
Local Open Scope list_scope.

(** ** Specification *)

(** What a syntax object is made of; [None] for everything else. *)
Definition datum (h : heap) (v : val) : option val :=
  match v with VPtr l => match nth_error h l with Some (CSyntax e _) => Some e | _ => None end | _ => None end.
(** An object without the syntax object around it, if there is one. *)
Definition inside (h : heap) (v : val) : val := match datum h v with Some e => e | None => v end.
Definition syntaxp (h : heap) (v : val) : bool := match datum h v with Some _ => true | None => false end.
Definition symbolp (v : val) : bool := match v with VSym _ | VGensym _ _ => true | _ => false end.
(** An object that exists, and what is in it if it is a syntax object. *)
Definition live (h : heap) (v : val) : Prop := match v with VPtr l => l < List.length h | VUnbound => False | _ => True end.
Definition alive (h : heap) (v : val) : Prop := live h v /\ live h (inside h v).

(** The global variables that the texts refer to or define. *)
Definition stx_base : list string :=
  ["syntax?"; "syntax-e"; "symbol?"; "not"; "raise-argument-error"; "eq?"; "null?"; "pair?"; "list?"; "car"; "cdr"; "cons"; "append"]%string.
Definition stx_defined : list string :=
  ["identifier?"; "free-identifier=?"; "stx-null?"; "stx-pair?"; "stx-list?"; "stx-car"; "stx-cdr"; "cons/#f"; "append/#f"]%string.
Definition stx_names : list string := stx_base ++ stx_defined.

Section Spec.
  Variable prim : N -> list val -> heap -> option presult.
  Variable complaint : val -> val -> err.
  Local Notation returns := (returns prim).
  Local Notation raises := (raises prim).

  (** *** What the texts rely on *)
  Definition is_syntax (s : store) f := forall v, returns s f [v] (of_bool (syntaxp (heap_of s) v)).
  Definition is_syntax_e (s : store) f :=
    (forall v e, datum (heap_of s) v = Some e -> returns s f [v] e) /\
    (forall v, live (heap_of s) v -> datum (heap_of s) v = None -> raises s f [v] (complaint (sym "syntax-e") v)).
  Definition is_symbol (s : store) f := forall v, returns s f [v] (of_bool (symbolp v)).
  Definition is_eq (s : store) f := forall a b, returns s f [a; b] (of_bool (eqp a b)).

  (** *** What the texts are to do *)
  Definition identifier (h : heap) (v : val) : bool := syntaxp h v && symbolp (inside h v).
  Definition is_identifier (s : store) f :=
    forall v, alive (heap_of s) v -> returns s f [v] (of_bool (identifier (heap_of s) v)).
  (** Two identifiers are the same if their symbols are; anything else is complained about,
      the first argument first. *)
  Definition is_free_identifier (s : store) f :=
    forall a b, alive (heap_of s) a -> alive (heap_of s) b ->
      if identifier (heap_of s) a then
        if identifier (heap_of s) b then returns s f [a; b] (of_bool (eqp (inside (heap_of s) a) (inside (heap_of s) b)))
        else raises s f [a; b] (complaint (sym "free-identifier=?") b)
      else raises s f [a; b] (complaint (sym "free-identifier=?") a).
  Definition is_stx_null (s : store) f := forall v, alive (heap_of s) v -> returns s f [v] (of_bool (nullp (inside (heap_of s) v))).
  Definition is_stx_pair (s : store) f := forall v, alive (heap_of s) v -> returns s f [v] (of_bool (pairp (heap_of s) (inside (heap_of s) v))).
  Definition is_stx_list (s : store) f :=
    (forall v xs, alive (heap_of s) v -> list_at (heap_of s) (inside (heap_of s) v) xs -> returns s f [v] VTrue) /\
    (forall v xs t, alive (heap_of s) v -> reach (heap_of s) (inside (heap_of s) v) xs t -> odd_tail (heap_of s) t -> returns s f [v] VFalse).
  (** [pick] is car or cdr, as [name] says. *)
  Definition is_stx_part (name : string) (pick : val * val -> val) (s : store) f :=
    (forall v p, alive (heap_of s) v -> pair_at (heap_of s) (inside (heap_of s) v) = Some p -> returns s f [v] (pick p)) /\
    (forall v e, alive (heap_of s) v -> datum (heap_of s) v = Some e -> pairp (heap_of s) e = false -> raises s f [v] (complaint (sym name) e)) /\
    (forall v, alive (heap_of s) v -> datum (heap_of s) v = None -> pairp (heap_of s) v = false -> raises s f [v] (complaint (sym "syntax-e") v)).
  Definition is_cons_f (s : store) f :=
    (forall a d, a <> VUnbound -> d <> VUnbound -> d <> VFalse ->
       exists v s', apply prim s f [a; d] (RVals [v]) s' /\ grows s s' /\ pair_at (heap_of s') v = Some (a, d)) /\
    (forall a, a <> VUnbound -> returns s f [a; VFalse] VFalse).
  Definition is_append_f (s : store) f :=
    (forall k l xs ys, list_at (heap_of s) k xs -> list_at (heap_of s) l ys ->
       exists v s', apply prim s f [k; l] (RVals [v]) s' /\ grows s s' /\ list_at (heap_of s') v (xs ++ ys)) /\
    (forall v, v <> VUnbound -> returns s f [VFalse; v] VFalse) /\
    (forall v, v <> VUnbound -> returns s f [v; VFalse] VFalse) /\
    (** Nothing is copied, and nothing checked, if the second list is empty. *)
    (forall v, v <> VUnbound -> returns s f [v; VNull] v).
End Spec.

(** ** What exists does not change *)
Section Kept.
  Variables s s' : store.
  Hypothesis G : grows s s'.
  Lemma live_cell l : l < List.length (heap_of s) -> nth_error (heap_of s') l = nth_error (heap_of s) l.
  Proof. destruct G as ((e & ->) & _). intros L. now rewrite nth_error_app1. Qed.
  Lemma kept_datum v : live (heap_of s) v -> datum (heap_of s') v = datum (heap_of s) v.
  Proof. destruct v; cbn; auto. intros L. now rewrite live_cell. Qed.
  Lemma kept_inside v : live (heap_of s) v -> inside (heap_of s') v = inside (heap_of s) v.
  Proof. intros L. unfold inside. now rewrite kept_datum. Qed.
  Lemma kept_syntaxp v : live (heap_of s) v -> syntaxp (heap_of s') v = syntaxp (heap_of s) v.
  Proof. intros L. unfold syntaxp. now rewrite kept_datum. Qed.
  Lemma kept_live v : live (heap_of s) v -> live (heap_of s') v.
  Proof. destruct v; cbn; auto. destruct G as ((e & ->) & _). rewrite app_length. lia. Qed.
  Lemma kept_alive v : alive (heap_of s) v -> alive (heap_of s') v.
  Proof. intros [A B]. split; [now apply kept_live|]. rewrite kept_inside by auto. now apply kept_live. Qed.
  Lemma kept_pair v : live (heap_of s) v -> pair_at (heap_of s') v = pair_at (heap_of s) v.
  Proof. destruct v; cbn; auto. intros L. now rewrite live_cell. Qed.
  Lemma kept_pairp v : live (heap_of s) v -> pairp (heap_of s') v = pairp (heap_of s) v.
  Proof. intros L. unfold pairp. now rewrite kept_pair. Qed.
End Kept.
Lemma live_bound h v : live h v -> v <> VUnbound.
Proof. intros H ->. exact H. Qed.
Lemma inside_syntax h v e : datum h v = Some e -> inside h v = e /\ pairp h v = false /\ nullp v = false.
Proof.
  intros E. split; [unfold inside; now rewrite E|]. destruct v; try discriminate. split; auto. cbn in E. unfold pairp. cbn.
  destruct (nth_error h l) as [[]|]; congruence.
Qed.
Lemma kept_identifier s s' v : grows s s' -> alive (heap_of s) v -> identifier (heap_of s') v = identifier (heap_of s) v.
Proof. intros G [A B]. unfold identifier. now rewrite (kept_syntaxp _ _ G), (kept_inside _ _ G). Qed.

Section Text.
  Variable names : list string.
  Hypothesis HN : incl stx_names names.
  Variable prim : N -> list val -> heap -> option presult.
  Variable complaint : val -> val -> err.
  Variable lit : obj -> val.
  Hypothesis HL : literals lit.
  Hypothesis HT : lit OTrue = VTrue.
  Variable s0 : store.
  Local Notation has := (has names s0).
  Local Notation later := (later names).
  Lemma stx_name x : existsb (String.eqb x) stx_names = true -> In x names.
  Proof. intros H. apply HN. apply existsb_exists in H. destruct H as (y & I & E). apply String.eqb_eq in E. now subst. Qed.
  Ltac nm := apply stx_name; reflexivity.
  Ltac stp := repeat lib_step nm.
  Ltac from_text LD :=
    match type of LD with loaded _ _ ?t =>
      let e := eval vm_compute in (code_of lit t) in
      match e with EDefine [Id ?x] (ELam ?fm ?body) =>
        apply (loaded_is names lit s0 t x fm body); [vm_cast_no_check (eq_refl e)|exact LD|]
      end
    end.
  Ltac lits := rewrite ?HT, ?(proj1 (proj2 HL)), ?(proj2 (proj2 (proj2 HL))).
  Ltac one AL := eapply runap_clo1; [eassumption|first [exact (live_bound _ _ (proj1 AL))|assumption]|]; let s := fresh "s" in let b := fresh "b" in let G := fresh "G" in let C := fresh "C" in
    intros s b G _ C; pcarry G; clear G; stp.

  Hypothesis Hsyntax : has "syntax?" (is_syntax prim).
  Hypothesis Hsyntax_e : has "syntax-e" (is_syntax_e prim complaint).
  Hypothesis Hsymbol : has "symbol?" (is_symbol prim).
  Hypothesis Hnot : has "not" (is_not prim).
  Hypothesis Hrae : has "raise-argument-error" (is_complaint prim complaint).
  Hypothesis Heq : has "eq?" (is_eq prim).
  Hypothesis Hnull : has "null?" (is_null prim).
  Hypothesis Hpair : has "pair?" (is_pair prim).
  Hypothesis Hlist : has "list?" (is_list prim).
  Hypothesis Hcar : has "car" (is_car prim complaint).
  Hypothesis Hcdr : has "cdr" (is_cdr prim complaint).
  Hypothesis Hcons : has "cons" (is_cons prim).
  Hypothesis Happend : has "append" (is_append prim).

  (** Answers about objects that exist when a procedure is called, later in the call. *)
  Lemma syntax_then so s f v : is_syntax prim s f -> grows so s -> live (heap_of so) v -> returns prim s f [v] (of_bool (syntaxp (heap_of so) v)).
  Proof. intros B G L. rewrite <- (kept_syntaxp _ _ G v L). apply B. Qed.
  Lemma pair_then so s f v : is_pair prim s f -> grows so s -> live (heap_of so) v -> returns prim s f [v] (of_bool (pairp (heap_of so) v)).
  Proof. intros B G L. rewrite <- (kept_pairp _ _ G v L). apply B. Qed.
  Lemma datum_then so s f v e : is_syntax_e prim complaint s f -> grows so s -> live (heap_of so) v -> datum (heap_of so) v = Some e -> returns prim s f [v] e.
  Proof. intros B G L E. apply (proj1 B). now rewrite (kept_datum _ _ G v L). Qed.
  Lemma identifier_then so s f v : is_identifier prim s f -> grows so s -> alive (heap_of so) v -> returns prim s f [v] (of_bool (identifier (heap_of so) v)).
  Proof. intros B G L. rewrite <- (kept_identifier _ _ _ G L). apply B. now apply (kept_alive _ _ G). Qed.

  Lemma identifier_ok : loaded lit s0 identifier_text -> has "identifier?" (is_identifier prim).
  Proof.
    intros LD. from_text LD. intros so f LT GD P. assert (R := grows_refl so). intros v AL. apply returns_run. one AL.
    replied ltac:(eapply syntax_then; [exact B|exact R|apply AL]). unfold identifier, syntaxp, inside.
    destruct (datum (heap_of so) v) as [e|] eqn:E; cbn [of_bool truthy andb]; stp.
    - replied ltac:(eapply datum_then; [exact B0|exact R|apply AL|exact E]). stp. replied ltac:(apply B1). auto.
    - lits. auto.
  Qed.
  Lemma stx_null_ok : loaded lit s0 stx_null_text -> has "stx-null?" (is_stx_null prim).
  Proof.
    intros LD. from_text LD. intros so f LT GD P. assert (R := grows_refl so). intros v AL. apply returns_run. one AL.
    replied ltac:(apply B). destruct (nullp v) eqn:EN.
    { destruct v; try discriminate. cbn [of_bool truthy]. stp. lits. auto. }
    cbn [of_bool truthy]. stp. replied ltac:(eapply syntax_then; [exact B0|exact R|apply AL]). unfold syntaxp, inside.
    destruct (datum (heap_of so) v) as [e|] eqn:E; cbn [of_bool truthy]; stp.
    - replied ltac:(eapply datum_then; [exact B1|exact R|apply AL|exact E]). stp. replied ltac:(apply B2). auto.
    - lits. rewrite EN. auto.
  Qed.
  Lemma stx_pair_ok : loaded lit s0 stx_pair_text -> has "stx-pair?" (is_stx_pair prim).
  Proof.
    intros LD. from_text LD. intros so f LT GD P. assert (R := grows_refl so). intros v AL. apply returns_run. one AL.
    replied ltac:(eapply pair_then; [exact B|exact R|apply AL]). destruct (datum (heap_of so) v) as [e|] eqn:E.
    - destruct (inside_syntax _ _ _ E) as (EI & EP & _). rewrite EP. cbn [of_bool truthy]. stp.
      replied ltac:(eapply syntax_then; [exact B0|exact R|apply AL]). unfold syntaxp. rewrite E. cbn [of_bool truthy]. stp.
      replied ltac:(eapply datum_then; [exact B1|exact R|apply AL|exact E]). stp.
      replied ltac:(eapply pair_then; [exact B2|exact R|rewrite <- EI; apply AL]). rewrite EI. auto.
    - unfold inside. rewrite E. destruct (pairp (heap_of so) v) eqn:EP; cbn [of_bool truthy]; stp; [lits; auto|].
      replied ltac:(eapply syntax_then; [exact B0|exact R|apply AL]). unfold syntaxp. rewrite E. cbn [of_bool truthy]. stp. lits. auto.
  Qed.
  Lemma stx_odd so v e : datum (heap_of so) v = Some e -> odd_tail (heap_of so) v.
  Proof.
    destruct v; try discriminate. cbn. intros E. split; [|discriminate]. destruct (nth_error (heap_of so) l) as [c|] eqn:K; [|discriminate].
    exists c. split; auto. intros a d ->. discriminate.
  Qed.
  Lemma stx_list_ok : loaded lit s0 stx_list_text -> has "stx-list?" (is_stx_list prim).
  Proof.
    intros LD. from_text LD. intros so f LT GD P. assert (R := grows_refl so). split.
    - intros v xs AL LA. apply returns_run. destruct (datum (heap_of so) v) as [e|] eqn:E.
      + destruct (inside_syntax _ _ _ E) as (EI & _). rewrite EI in LA. assert (OD := stx_odd _ _ _ E). one AL.
        replied ltac:(eapply (proj2 B); [apply ReachEnd|eassumption]). cbn [truthy]. stp.
        replied ltac:(eapply syntax_then; [exact B0|exact R|apply AL]). unfold syntaxp. rewrite E. cbn [of_bool truthy]. stp.
        replied ltac:(eapply datum_then; [exact B1|exact R|apply AL|exact E]). stp. replied ltac:(eapply (proj1 B2); eassumption). auto.
      + unfold inside in LA. rewrite E in LA. one AL. replied ltac:(eapply (proj1 B); eassumption). cbn [truthy]. stp. lits. auto.
    - intros v xs t AL LA OT. apply returns_run. destruct (datum (heap_of so) v) as [e|] eqn:E.
      + destruct (inside_syntax _ _ _ E) as (EI & _). rewrite EI in LA. assert (OD := stx_odd _ _ _ E). one AL.
        replied ltac:(eapply (proj2 B); [apply ReachEnd|exact OD]). cbn [truthy]. stp.
        replied ltac:(eapply syntax_then; [exact B0|exact R|apply AL]). unfold syntaxp. rewrite E. cbn [of_bool truthy]. stp.
        replied ltac:(eapply datum_then; [exact B1|exact R|apply AL|exact E]). stp. replied ltac:(eapply (proj2 B2); eassumption). auto.
      + unfold inside in LA. rewrite E in LA. one AL. replied ltac:(eapply (proj2 B); eassumption). cbn [truthy]. stp.
        replied ltac:(eapply syntax_then; [exact B0|exact R|apply AL]). unfold syntaxp. rewrite E. cbn [of_bool truthy]. stp. lits. auto.
  Qed.
  Lemma not_a_pair h v : live h v -> pairp h v = false -> no_pair h v.
  Proof.
    destruct v; cbn; auto. intros L E. destruct (nth_error h l) as [c|] eqn:K; [|apply nth_error_None in K; lia]. exists c. split; auto.
    intros a d ->. unfold pairp in E. cbn in E. now rewrite K in E.
  Qed.
  Lemma stx_car_ok : loaded lit s0 stx_car_text -> has "stx-car" (is_stx_part prim complaint "car" fst).
  Proof.
    intros LD. from_text LD.
    intros so f LT GD P. assert (R := grows_refl so). split; [|split].
    - intros v [a d] AL PA. apply returns_run. destruct (datum (heap_of so) v) as [e|] eqn:E.
      + destruct (inside_syntax _ _ _ E) as (EI & EP & _). rewrite EI in PA. one AL.
        replied ltac:(eapply pair_then; [exact B|exact R|apply AL]). rewrite EP. cbn [of_bool truthy]. stp.
        replied ltac:(eapply datum_then; [exact B0|exact R|apply AL|exact E]). stp. replied ltac:(eapply (proj1 B1); eassumption). auto.
      + unfold inside in PA. rewrite E in PA. assert (EP : pairp (heap_of so) v = true) by (unfold pairp; now rewrite PA). one AL.
        replied ltac:(eapply pair_then; [exact B|exact R|apply AL]). rewrite EP. cbn [of_bool truthy]. stp. replied ltac:(eapply (proj1 B0); eassumption). auto.
    - intros v e AL E NP. apply raises_run. destruct (inside_syntax _ _ _ E) as (EI & EP & _).
      assert (N := not_a_pair _ e ltac:(rewrite <- EI; apply AL) NP). one AL.
      replied ltac:(eapply pair_then; [exact B|exact R|apply AL]). rewrite EP. cbn [of_bool truthy]. stp.
      replied ltac:(eapply datum_then; [exact B0|exact R|apply AL|exact E]). stp.
      eapply runap_raises; [eapply (proj2 B1); eassumption|]. intros s' G'. pcarry G'. auto.
    - intros v AL E EP. apply raises_run. one AL.
      replied ltac:(eapply pair_then; [exact B|exact R|apply AL]). rewrite EP. cbn [of_bool truthy]. stp.
      eapply runap_raises; [apply (proj2 B0); [apply (kept_live _ _ R), AL|rewrite (kept_datum _ _ R) by apply AL; exact E]|].
      intros s' G'. pcarry G'. cbv beta iota. auto.
  Qed.
  Lemma stx_cdr_ok : loaded lit s0 stx_cdr_text -> has "stx-cdr" (is_stx_part prim complaint "cdr" snd).
  Proof.
    intros LD. from_text LD.
    intros so f LT GD P. assert (R := grows_refl so). split; [|split].
    - intros v [a d] AL PA. apply returns_run. destruct (datum (heap_of so) v) as [e|] eqn:E.
      + destruct (inside_syntax _ _ _ E) as (EI & EP & _). rewrite EI in PA. one AL.
        replied ltac:(eapply pair_then; [exact B|exact R|apply AL]). rewrite EP. cbn [of_bool truthy]. stp.
        replied ltac:(eapply datum_then; [exact B0|exact R|apply AL|exact E]). stp. replied ltac:(eapply (proj1 B1); eassumption). auto.
      + unfold inside in PA. rewrite E in PA. assert (EP : pairp (heap_of so) v = true) by (unfold pairp; now rewrite PA). one AL.
        replied ltac:(eapply pair_then; [exact B|exact R|apply AL]). rewrite EP. cbn [of_bool truthy]. stp. replied ltac:(eapply (proj1 B0); eassumption). auto.
    - intros v e AL E NP. apply raises_run. destruct (inside_syntax _ _ _ E) as (EI & EP & _).
      assert (N := not_a_pair _ e ltac:(rewrite <- EI; apply AL) NP). one AL.
      replied ltac:(eapply pair_then; [exact B|exact R|apply AL]). rewrite EP. cbn [of_bool truthy]. stp.
      replied ltac:(eapply datum_then; [exact B0|exact R|apply AL|exact E]). stp.
      eapply runap_raises; [eapply (proj2 B1); eassumption|]. intros s' G'. pcarry G'. auto.
    - intros v AL E EP. apply raises_run. one AL.
      replied ltac:(eapply pair_then; [exact B|exact R|apply AL]). rewrite EP. cbn [of_bool truthy]. stp.
      eapply runap_raises; [apply (proj2 B0); [apply (kept_live _ _ R), AL|rewrite (kept_datum _ _ R) by apply AL; exact E]|].
      intros s' G'. pcarry G'. cbv beta iota. auto.
  Qed.
  Ltac two NA NB := eapply runap_clo2; [eassumption|exact NA|exact NB|]; let s := fresh "s" in let b := fresh "b" in let c := fresh "c" in let G := fresh "G" in
    let C := fresh "C" in let D := fresh "D" in intros s b c G _ _ C D; pcarry G; clear G; stp.
  Lemma free_identifier_ok : has "identifier?" (is_identifier prim) -> loaded lit s0 free_identifier_text -> has "free-identifier=?" (is_free_identifier prim complaint).
  Proof.
    intros Hid LD. from_text LD. intros so f LT GD P. assert (R := grows_refl so). intros a b LA LB.
    assert (NA := live_bound _ _ (proj1 LA)). assert (NB := live_bound _ _ (proj1 LB)).
    destruct (identifier (heap_of so) a) eqn:IA.
    2: { apply raises_run. two NA NB. replied ltac:(eapply identifier_then; [exact B|exact R|exact LA]). rewrite IA. stp. replied ltac:(apply B0). cbn [of_bool truthy negb]. stp. lits.
         eapply runap_raises; [apply B1|]. intros s' G'. pcarry G'. cbv beta iota. auto. }
    destruct (identifier (heap_of so) b) eqn:IB.
    2: { apply raises_run. two NA NB. replied ltac:(eapply identifier_then; [exact B|exact R|exact LA]). rewrite IA. stp. replied ltac:(apply B0). cbn [of_bool truthy negb]. stp.
         replied ltac:(eapply identifier_then; [exact B1|exact R|exact LB]). rewrite IB. stp. replied ltac:(apply B2). cbn [of_bool truthy negb]. stp. lits.
         eapply runap_raises; [apply B3|]. intros s' G'. pcarry G'. cbv beta iota. auto. }
    apply returns_run. two NA NB. replied ltac:(eapply identifier_then; [exact B|exact R|exact LA]). rewrite IA. stp. replied ltac:(apply B0). cbn [of_bool truthy negb]. stp.
    replied ltac:(eapply identifier_then; [exact B1|exact R|exact LB]). rewrite IB. stp. replied ltac:(apply B2). cbn [of_bool truthy negb]. stp.
    unfold identifier, syntaxp in IA, IB. unfold inside.
    destruct (datum (heap_of so) a) as [x|] eqn:EA; [|discriminate]. destruct (datum (heap_of so) b) as [y|] eqn:EB; [|discriminate].
    replied ltac:(eapply datum_then; [exact B3|exact R|apply LA|exact EA]). stp.
    replied ltac:(eapply datum_then; [exact B4|exact R|apply LB|exact EB]). stp. replied ltac:(apply B5). auto.
  Qed.
  Lemma cons_f_ok : loaded lit s0 cons_f_text -> has "cons/#f" (is_cons_f prim).
  Proof.
    intros LD. from_text LD. intros so f LT GD P. assert (R := grows_refl so). split.
    - intros a d NA ND NF.
      assert (OUT : runap prim so f [a; d] (fun o s' => grows so s' /\ exists v, o = RVals [v] /\ pair_at (heap_of s') v = Some (a, d))).
      { two NA ND. assert (TD : truthy d = true) by (destruct d; auto; congruence). rewrite TD. stp. replied_cons ltac:(exact B). split; auto. exists w. auto. }
      destruct OUT as (o & s' & A & G & w & -> & PA). exists w, s'. auto.
    - intros a NA. apply returns_run. two NA (ltac:(discriminate) : VFalse <> VUnbound). cbn [truthy]. stp. lits. auto.
  Qed.
  Lemma append_f_ok : loaded lit s0 append_f_text -> has "append/#f" (is_append_f prim).
  Proof.
    intros LD. from_text LD. intros so f LT GD P. assert (R := grows_refl so). split; [|split; [|split]].
    - intros k l xs ys LK LL. assert (NK := list_bound _ _ _ LK). assert (NL := list_bound _ _ _ LL).
      assert (TK : truthy k = true) by (inversion LK; reflexivity). assert (TL : truthy l = true) by (inversion LL; reflexivity).
      assert (OUT : runap prim so f [k; l] (fun o s' => grows so s' /\ exists v, o = RVals [v] /\ list_at (heap_of s') v (xs ++ ys))).
      { two NK NL. rewrite TK. stp. rewrite TL. stp. replied ltac:(apply B). inversion LL; subst; cbn [nullp of_bool truthy]; stp.
        - split; auto. exists k. split; auto. now rewrite app_nil_r.
        - eapply runap_list; [eapply B0; eassumption|]. intros w s' G' LW. pcarry G'. split; auto. exists w. auto. }
      destruct OUT as (o & s' & A & G & w & -> & PA). exists w, s'. auto.
    - intros v NV. apply returns_run. two (ltac:(discriminate) : VFalse <> VUnbound) NV. cbn [truthy]. stp. lits. auto.
    - intros v NV. apply returns_run. two NV (ltac:(discriminate) : VFalse <> VUnbound). destruct (truthy v); stp; cbn [truthy]; stp; lits; auto.
    - intros v NV. apply returns_run. two NV (ltac:(discriminate) : VNull <> VUnbound). destruct (truthy v) eqn:T.
      + stp. cbn [truthy]. stp. replied ltac:(apply B). cbn [nullp of_bool truthy]. stp. auto.
      + assert (v = VFalse) as -> by (destruct v; cbn in T; congruence). stp. lits. auto.
  Qed.
End Text.
