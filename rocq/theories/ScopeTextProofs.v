(** What scope-contains? is to do, and running its text. *)
From Coq Require Import ZArith NArith Bool Ascii String List Arith Lia.
From Verif Require Import Base Heap HeapM Ast Sem Check Lists SimLemmas LibText LibTextProofs LibTextRun PathTextProofs PathTextRun StxTextProofs ScopeText.
Import ListNotations.
Local Open Scope list_scope.

(** ** Specification *)

(** A scope is a record of the names bound in it, a set, and the scope around it
    (src/library/expander.min:32-33). *)
Definition scope_at (h : heap) (v : val) : option (val * val) :=
  match v with VPtr l => match nth_error h l with Some (CRec _ [b; p]) => Some (b, p) | _ => None end | _ => None end.
(** The sets of the scopes from [v] outwards; the outermost one has #f around it. *)
Inductive scopes (h : heap) : val -> list val -> Prop :=
| ScopesEnd : scopes h VFalse []
| ScopesIn v b p bs : scope_at h v = Some (b, p) -> scopes h p bs -> scopes h v (b :: bs).
Definition scope_names : list string := ["not"; "set-member?"; "scope-bound"; "scope-prev"; "scope-contains?"]%string.

Section Spec.
  Variable prim : N -> list val -> heap -> option presult.
  (** Whether a set has a member. *)
  Variable member : heap -> val -> val -> bool.
  Local Notation returns := (returns prim).
  Definition is_scope_bound (s : store) f := forall v b p, scope_at (heap_of s) v = Some (b, p) -> returns s f [v] b.
  Definition is_scope_prev (s : store) f := forall v b p, scope_at (heap_of s) v = Some (b, p) -> returns s f [v] p.
  Definition is_set_member (s : store) f := forall b x, returns s f [b; x] (of_bool (member (heap_of s) b x)).
  (** A name is in a scope if it is in the set of the scope or of one around it.  New objects
      must not change what is in those sets. *)
  Definition is_scope_contains (s : store) f :=
    forall v bs x, scopes (heap_of s) v bs -> x <> VUnbound ->
      (forall h b, extends (heap_of s) h -> In b bs -> member h b x = member (heap_of s) b x) ->
      returns s f [v; x] (of_bool (existsb (fun b => member (heap_of s) b x) bs)).
End Spec.

Lemma grows_scope s s' v q : grows s s' -> scope_at (heap_of s) v = Some q -> scope_at (heap_of s') v = Some q.
Proof.
  intros ((e & E) & _) H. rewrite E. destruct v; try discriminate. cbn in *. destruct (nth_error (heap_of s) l) as [c|] eqn:K; [|discriminate].
  rewrite nth_error_app1 by (apply nth_error_Some; congruence). now rewrite K.
Qed.
Lemma scopes_bound h v bs : scopes h v bs -> v <> VUnbound.
Proof. intros H ->. inversion H. discriminate. Qed.

Section Text.
  Variable names : list string.
  Hypothesis HN : incl scope_names names.
  Variable prim : N -> list val -> heap -> option presult.
  Variable member : heap -> val -> val -> bool.
  Variable lit : obj -> val.
  Hypothesis HL : literals lit.
  Hypothesis HT : lit OTrue = VTrue.
  Variable s0 : store.
  Local Notation has := (has names s0).
  Local Notation later := (later names).
  Lemma scope_name x : existsb (String.eqb x) scope_names = true -> In x names.
  Proof. intros H. apply HN. apply existsb_exists in H. destruct H as (y & I & E). apply String.eqb_eq in E. now subst. Qed.
  Ltac nm := apply scope_name; reflexivity.
  Ltac stp := repeat lib_step nm.
  Hypothesis Hnot : has "not" (is_not prim).
  Hypothesis Hmember : has "set-member?" (is_set_member prim member).
  Hypothesis Hbound : has "scope-bound" (is_scope_bound prim).
  Hypothesis Hprev : has "scope-prev" (is_scope_prev prim).

  Lemma scope_contains_ok : loaded lit s0 scope_contains_text -> has "scope-contains?" (is_scope_contains prim member).
  Proof.
    intros LD.
    match type of LD with loaded _ _ ?t =>
      let e := eval vm_compute in (code_of lit t) in
      match e with EDefine [Id ?x] (ELam ?fm ?body) =>
        apply (loaded_is names lit s0 t x fm body); [vm_cast_no_check (eq_refl e)|exact LD|]
      end
    end.
    intros so f LT GD P. assert (R := grows_refl so). intros v bs x SC NX ST. apply returns_run.
    eapply runap_clo2; [exact P|exact (scopes_bound _ _ _ SC)|exact NX|]. intros s1 b c G1 _ _ C1 C2. pcarry G1. apply runseq_one.
    eapply run_loop; [assumption|]. intros lp s G CL PL.
    match type of CL with cell_is _ (List.length (cells_of ?z)) _ => set (i := List.length (cells_of z)) in *; clearbody i end. pcarry G.
    assert (LOOP : forall bs v z, scopes (heap_of so) v bs -> (forall h b, extends (heap_of so) h -> In b bs -> member h b x = member (heap_of so) b x) ->
      grows so z -> later s0 z -> good z -> cell_is z i lp -> cell_is z c x -> proc_at lp (procs_of z) = proc_at lp (procs_of s) ->
      runap prim z lp [v] (fun o s' => o = RVals [of_bool (existsb (fun b => member (heap_of so) b x) bs)] /\ grows so s')).
    { rewrite PL. clear - HN HL HT Hnot Hmember Hbound Hprev.
      induction bs as [|e bs IH]; intros v z SC ST R LT GD CL CX PL; (eapply runap_clo1; [exact PL|exact (scopes_bound _ _ _ SC)|]); intros z1 c1 G1 _ C; pcarry G1; stp;
        replied ltac:(apply B).
      - inversion SC; subst. cbn [truthy negb of_bool]. stp. rewrite (proj1 (proj2 HL)). auto.
      - inversion SC as [|? ? p ? SA SC']; subst. assert (TV : truthy v = true) by (destruct v; auto; discriminate). rewrite TV. cbn [negb of_bool truthy]. stp.
        replied ltac:(eapply B0; eapply grows_scope; [exact R|exact SA]). stp. match goal with |- runap _ ?y ?g _ _ => assert (AM : returns prim y g [e; x] (of_bool (member (heap_of so) e x))) end.
        { rewrite <- (ST _ e (proj1 R) (or_introl eq_refl)). apply B1. }
        replied ltac:(exact AM). cbn [existsb]. destruct (member (heap_of so) e x); cbn [orb of_bool truthy]; stp; [rewrite HT; auto|].
        replied ltac:(eapply B2; eapply grows_scope; [exact R|exact SA]). stp. eapply IH; eauto. intros h d E I. apply ST; auto. now right. }
    stp. eapply LOOP; eauto.
  Qed.
End Text.
