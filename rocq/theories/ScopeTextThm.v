(** C86: what scope-contains? does when its text is read, compiled and evaluated.  The
    specification is the first part of ScopeTextProofs.v. *)
From Coq Require Import ZArith NArith Bool Ascii String List Arith Lia.
From Verif Require Import Base Heap HeapM Ast Reader Sem Check Lists SimLemmas LibText LibBoot LibTextProofs LibTextRun LibTextThm
  PathTextProofs PathTextRun StxTextProofs StxTextThm ScopeText ScopeTextProofs.
Import ListNotations.
Local Open Scope list_scope.

Theorem C86_text : nth_error boot_min 88 = Some scope_contains_text.
Proof. vm_compute. reflexivity. Qed.
Theorem C86_text_read : exists o, read_object 400 (list_ascii_of_string scope_contains_text) = ROk o [].
Proof. eexists. vm_compute. reflexivity. Qed.

Record scope_ready (prim : N -> list val -> heap -> option presult) (member : heap -> val -> val -> bool) (lit : obj -> val) (s : store) : Prop := ScopeReady {
  cr_literals : literals lit;
  cr_true : lit OTrue = VTrue;
  cr_loaded : loaded lit s scope_contains_text;
  cr_not : has scope_names s "not" (is_not prim);
  cr_member : has scope_names s "set-member?" (is_set_member prim member);
  cr_bound : has scope_names s "scope-bound" (is_scope_bound prim);
  cr_prev : has scope_names s "scope-prev" (is_scope_prev prim) }.

Section Ready.
  Variable prim : N -> list val -> heap -> option presult.
  Variable member : heap -> val -> val -> bool.
  Variable lit : obj -> val.
  Variable s : store.
  Hypothesis RD : scope_ready prim member lit s.
  Theorem C86_contains : has scope_names s "scope-contains?" (is_scope_contains prim member).
  Proof. eapply (scope_contains_ok scope_names) with (lit := lit); first [apply incl_refl|apply RD]. Qed.
  (** A name that is not in the innermost scope is in the scope if it is in the one around it. *)
  Theorem C86_around z v b p bs x :
    later scope_names s z -> good z -> scope_at (heap_of z) v = Some (b, p) -> scopes (heap_of z) p bs -> x <> VUnbound ->
    (forall h c, extends (heap_of z) h -> In c (b :: bs) -> member h c x = member (heap_of z) c x) -> member (heap_of z) b x = false ->
    exists f r, glob_ref (Id "scope-contains?") (glob_of z) = Some f /\ returns prim z f [p; x] r /\ returns prim z f [v; x] r.
  Proof.
    intros LT G SA SC NX ST NM. destruct C86_contains as (f & F1 & _ & F3). exists f, (of_bool (existsb (fun c => member (heap_of z) c x) bs)).
    split; [rewrite (proj2 LT); auto; apply existsb_in; reflexivity|]. split.
    - apply (F3 z LT G); auto. intros h c E I. apply ST; auto. now right.
    - pose proof (F3 z LT G v (b :: bs) x ltac:(econstructor; eauto) NX ST) as H. cbn [existsb] in H. now rewrite NM in H.
  Qed.
End Ready.

(** ** A store that meets the hypotheses, with vectors for sets *)
Definition cx_member (h : heap) (b x : val) : bool :=
  match b with VPtr l => match nth_error h l with Some (CVec xs) => existsb (eqp x) xs | _ => false end | _ => false end.
Definition cx_prim (n : N) (vs : list val) (h : heap) : option presult :=
  match n, vs with
  | 0%N, [v] => Some (PrimVal (of_bool (negb (truthy v))) h)
  | 1%N, [b; x] => Some (PrimVal (of_bool (cx_member h b x)) h)
  | 2%N, [v] => Some (match scope_at h v with Some (b, p) => PrimVal b h | None => PrimErr (EArg "scope-bound" v) h end)
  | 3%N, [v] => Some (match scope_at h v with Some (b, p) => PrimVal p h | None => PrimErr (EArg "scope-prev" v) h end)
  | _, _ => None
  end.
Definition cx_before : store :=
  ex_install 0 [("not", 1); ("set-member?", 2); ("scope-bound", 1); ("scope-prev", 1)]%string (Store [] [] [] []).
Lemma cx_good : good cx_before.
Proof.
  intros l p H. assert (K : forall ps, proc_ref l ps = Some p -> In l (map fst ps)).
  { induction ps as [|[k q] ps IH]; cbn; [discriminate|]. destruct (Nat.eqb_spec k l); auto. }
  apply K in H. revert H. vm_compute. intuition lia.
Qed.
Lemma cx_shaped : Forall2 (shaped tx_lit) [scope_contains_text] ["scope-contains?"%string].
Proof.
  constructor; [|constructor]. let e := eval vm_compute in (code_of tx_lit scope_contains_text) in
    match e with EDefine _ (ELam ?fm ?body) => exists fm, body; vm_cast_no_check (eq_refl e) end.
Qed.
Lemma cx_once : NoDup ["scope-contains?"%string].
Proof. apply distinct_nodup. reflexivity. Qed.
Lemma cx_has s x l n k (B : store -> val -> Prop) :
  loads cx_prim tx_lit cx_before [scope_contains_text] s -> String.eqb x "scope-contains?" = false ->
  glob_ref (Id x) (glob_of cx_before) = Some (VPtr l) -> proc_ref l (procs_of cx_before) = Some (PPrim n k) ->
  (forall z, good z -> proc_at (VPtr l) (procs_of z) = Some (PPrim n k) -> B z (VPtr l)) -> has scope_names s x B.
Proof.
  intros L I E Q H.
  destruct (loads_all cx_prim tx_lit (fun _ _ => ErrNotProc VNull) (fun _ _ => ErrNotProc VNull) _ _ cx_shaped cx_once _ _ cx_good L) as (_ & I2 & I3 & _).
  exists (VPtr l). split; [rewrite I3; auto|].
  - intros [J|[]]. apply String.eqb_neq in I. congruence.
  - split; [discriminate|]. intros z [L1 _] G. apply H; auto. now apply L1, I2.
Qed.
Lemma cx_value s f n vs v :
  proc_at f (procs_of s) = Some (PPrim n (List.length vs)) -> List.length vs <= 6 -> cx_prim n vs (heap_of s) = Some (PrimVal v (heap_of s)) ->
  returns cx_prim s f vs v.
Proof. intros P L E. exists (set_heap (heap_of s) s). split; [eapply ApPrim; eauto|apply grows_set_heap, extends_refl]. Qed.
Example scope_ready_example : exists s, loads cx_prim tx_lit cx_before [scope_contains_text] s /\ good s /\ scope_ready cx_prim cx_member tx_lit s.
Proof.
  destruct (loads_some cx_prim tx_lit _ _ cx_shaped cx_before) as [s L]. exists s. split; auto.
  destruct (loads_all cx_prim tx_lit (fun _ _ => ErrNotProc VNull) (fun _ _ => ErrNotProc VNull) _ _ cx_shaped cx_once _ _ cx_good L) as (G & _ & _ & F).
  split; auto. inversion F; subst. constructor; auto; [repeat split|..]; match goal with |- has _ _ ?x _ =>
    let g := eval vm_compute in (glob_ref (Id x) (glob_of cx_before)) in
    match g with Some (VPtr ?l) => let p := eval vm_compute in (proc_ref l (procs_of cx_before)) in
      match p with Some (PPrim ?n ?k) => apply (cx_has s x l n k); [exact L|reflexivity|vm_compute; reflexivity|vm_compute; reflexivity|intros z GD P] end end end.
  - intros v. eapply cx_value; [exact P|cbn; lia|reflexivity].
  - intros b x. eapply cx_value; [exact P|cbn; lia|reflexivity].
  - intros v b p E. eapply cx_value; [exact P|cbn; lia|]. cbn [cx_prim]. now rewrite E.
  - intros v b p E. eapply cx_value; [exact P|cbn; lia|]. cbn [cx_prim]. now rewrite E.
Qed.
(** A scope that binds a, in one that binds b: it contains both, and not c. *)
Example scope_objects_example : exists s z v f,
  scope_ready cx_prim cx_member tx_lit s /\ later scope_names s z /\ good z /\ glob_ref (Id "scope-contains?") (glob_of z) = Some f /\
  returns cx_prim z f [v; sym "a"] VTrue /\ returns cx_prim z f [v; sym "b"] VTrue /\ returns cx_prim z f [v; sym "c"] VFalse.
Proof.
  destruct scope_ready_example as (s & _ & G & RD). set (m := List.length (heap_of s)).
  set (cells := [CVec [sym "b"]; CVec [sym "a"]; CRec VBaseRtd [VPtr (m + 0); VFalse]; CRec VBaseRtd [VPtr (m + 1); VPtr (m + 2)]]).
  set (z := set_heap (heap_of s ++ cells) s). assert (GR : grows s z) by apply grows_set_heap, extends_app.
  assert (AT : forall k, nth_error (heap_of z) (m + k) = nth_error cells k).
  { intros k. cbn. rewrite nth_error_app2 by (unfold m; lia). f_equal. unfold m. lia. }
  assert (LT := grows_later scope_names _ _ GR). assert (GZ := grows_good _ _ GR G).
  assert (SC : scopes (heap_of z) (VPtr (m + 3)) [VPtr (m + 1); VPtr (m + 0)]).
  { eapply ScopesIn; [unfold scope_at; rewrite AT; reflexivity|]. eapply ScopesIn; [unfold scope_at; rewrite AT; reflexivity|]. constructor. }
  assert (ST : forall x h b, extends (heap_of z) h -> In b [VPtr (m + 1); VPtr (m + 0)] -> cx_member h b x = cx_member (heap_of z) b x).
  { intros x h b (e & ->) [<-|[<-|[]]]; unfold cx_member; rewrite nth_error_app1; auto; apply nth_error_Some; rewrite AT; discriminate. }
  destruct (C86_contains _ _ _ _ RD) as (f & F1 & _ & F3). exists s, z, (VPtr (m + 3)), f. split; auto. split; auto. split; auto.
  split; [rewrite (proj2 LT); auto; apply existsb_in; reflexivity|].
  assert (H : forall x, x <> VUnbound -> returns cx_prim z f [VPtr (m + 3); x] (of_bool (existsb (eqp x) [sym "a"] || (existsb (eqp x) [sym "b"] || false)))).
  { intros x NX. pose proof (F3 z LT GZ _ _ x SC NX (ST x)) as H. cbn [existsb] in H. unfold cx_member in H. rewrite !AT in H. exact H. }
  split; [exact (H (sym "a") ltac:(discriminate))|]. split; [exact (H (sym "b") ltac:(discriminate))|exact (H (sym "c") ltac:(discriminate))].
Qed.

Print Assumptions C86_text.
Print Assumptions C86_text_read.
Print Assumptions C86_contains.
Print Assumptions C86_around.
Print Assumptions scope_ready_example.
Print Assumptions scope_objects_example.
