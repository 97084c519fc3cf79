(** C83: what the procedures for syntax objects do when their text is read, compiled and
    evaluated.  The specification is the first part of StxTextProofs.v. *)
From Coq Require Import ZArith NArith Bool Ascii String List Arith Lia.
From Verif Require Import Base Heap HeapM Ast Reader Sem Check Lists SimLemmas LibText LibBoot LibTextProofs LibTextRun LibTextThm
  PathTextProofs PathTextRun StxText StxTextProofs.
Import ListNotations.
Local Open Scope list_scope.

(** The texts are the lines 63-67, 69, 70, 73 and 74 of the boot file, and are read to their end. *)
Theorem C83_texts : map (nth_error boot_min) [62; 63; 64; 65; 66; 68; 69; 72; 73] = map Some stx_texts.
Proof. vm_compute. reflexivity. Qed.
Theorem C83_texts_read : Forall (fun t => exists o, read_object 400 (list_ascii_of_string t) = ROk o []) stx_texts.
Proof. unfold stx_texts. repeat constructor; eexists; vm_compute; reflexivity. Qed.

(** What the texts rely on, in a store where they have been evaluated. *)
Record stx_relies (prim : N -> list val -> heap -> option presult) (complaint : val -> val -> err) (s : store) : Prop := StxRelies {
  tr_syntax : has stx_names s "syntax?" (is_syntax prim);
  tr_syntax_e : has stx_names s "syntax-e" (is_syntax_e prim complaint);
  tr_symbol : has stx_names s "symbol?" (is_symbol prim);
  tr_not : has stx_names s "not" (is_not prim);
  tr_complaint : has stx_names s "raise-argument-error" (is_complaint prim complaint);
  tr_eq : has stx_names s "eq?" (is_eq prim);
  tr_null : has stx_names s "null?" (is_null prim);
  tr_pair : has stx_names s "pair?" (is_pair prim);
  tr_list : has stx_names s "list?" (is_list prim);
  tr_car : has stx_names s "car" (is_car prim complaint);
  tr_cdr : has stx_names s "cdr" (is_cdr prim complaint);
  tr_cons : has stx_names s "cons" (is_cons prim);
  tr_append : has stx_names s "append" (is_append prim) }.
Record stx_ready (prim : N -> list val -> heap -> option presult) (lit : obj -> val) (complaint : val -> val -> err) (s : store) : Prop := StxReady {
  td_literals : literals lit;
  td_true : lit OTrue = VTrue;
  td_loaded : Forall (loaded lit s) stx_texts;
  td_relies : stx_relies prim complaint s }.

Section Ready.
  Variable prim : N -> list val -> heap -> option presult.
  Variable lit : obj -> val.
  Variable complaint : val -> val -> err.
  Variable s : store.
  Hypothesis RD : stx_ready prim lit complaint s.
  Lemma stx_loaded t : In t stx_texts -> loaded lit s t.
  Proof. pose proof (td_loaded _ _ _ _ RD) as F. rewrite Forall_forall in F. auto. Qed.
  Ltac text := apply stx_loaded; unfold stx_texts; cbn [In]; repeat (first [left; reflexivity|right]).
  Ltac lib := first [apply incl_refl|apply (td_literals _ _ _ _ RD)|apply (td_true _ _ _ _ RD)|text|apply (td_relies _ _ _ _ RD)|eassumption].
  Theorem C83_identifier : has stx_names s "identifier?" (is_identifier prim).
  Proof. eapply (identifier_ok stx_names) with (lit := lit); lib. Qed.
  Theorem C83_free_identifier : has stx_names s "free-identifier=?" (is_free_identifier prim complaint).
  Proof. eapply (free_identifier_ok stx_names) with (lit := lit); first [exact C83_identifier|lib]. Qed.
  Theorem C83_stx_null : has stx_names s "stx-null?" (is_stx_null prim).
  Proof. eapply (stx_null_ok stx_names) with (lit := lit); lib. Qed.
  Theorem C83_stx_pair : has stx_names s "stx-pair?" (is_stx_pair prim).
  Proof. eapply (stx_pair_ok stx_names) with (lit := lit); lib. Qed.
  Theorem C83_stx_list : has stx_names s "stx-list?" (is_stx_list prim).
  Proof. eapply (stx_list_ok stx_names) with (lit := lit); lib. Qed.
  Theorem C83_stx_car : has stx_names s "stx-car" (is_stx_part prim complaint "car" fst).
  Proof. eapply (stx_car_ok stx_names) with (lit := lit); lib. Qed.
  Theorem C83_stx_cdr : has stx_names s "stx-cdr" (is_stx_part prim complaint "cdr" snd).
  Proof. eapply (stx_cdr_ok stx_names) with (lit := lit); lib. Qed.
  Theorem C83_cons_f : has stx_names s "cons/#f" (is_cons_f prim).
  Proof. eapply (cons_f_ok stx_names) with (lit := lit); lib. Qed.
  Theorem C83_append_f : has stx_names s "append/#f" (is_append_f prim).
  Proof. eapply (append_f_ok stx_names) with (lit := lit); lib. Qed.

  (** One could expect that stx-list? is true of whatever stx-cdr takes to something that
      stx-null? is true of.  It is not: the tails of a list must not be syntax objects. *)
  Theorem C83_list_of_tails_refuted z v a d :
    later stx_names s z -> good z -> pair_at (heap_of z) v = Some (a, d) -> datum (heap_of z) d = Some VNull ->
    exists f g k, glob_ref (Id "stx-cdr") (glob_of z) = Some f /\ returns prim z f [v] d /\
      glob_ref (Id "stx-null?") (glob_of z) = Some g /\ returns prim z g [d] VTrue /\
      glob_ref (Id "stx-list?") (glob_of z) = Some k /\ returns prim z k [v] VFalse.
  Proof.
    intros LT G PV DD. destruct C83_stx_cdr as (f & F1 & F2 & F3). destruct C83_stx_null as (g & G1 & G2 & G3). destruct C83_stx_list as (k & K1 & K2 & K3).
    pose proof (pair_at_inv _ _ _ _ PV) as (l & -> & EL).
    assert (DN : datum (heap_of z) (VPtr l) = None) by (cbn; now rewrite EL).
    assert (IV : inside (heap_of z) (VPtr l) = VPtr l) by (unfold inside; now rewrite DN).
    assert (AV : alive (heap_of z) (VPtr l)) by (split; [|rewrite IV]; cbn; apply nth_error_Some; congruence).
    assert (ID : inside (heap_of z) d = VNull) by (unfold inside; now rewrite DD).
    assert (AD : alive (heap_of z) d).
    { split; [|rewrite ID; exact I]. destruct d; try discriminate. cbn in *. apply nth_error_Some. destruct (nth_error (heap_of z) l0); congruence. }
    assert (NM : forall x, existsb (String.eqb x) stx_names = true -> glob_ref (Id x) (glob_of z) = glob_ref (Id x) (glob_of s)).
    { intros x H. apply (proj2 LT). now apply existsb_in. }
    exists f, g, k. rewrite !NM by reflexivity. split; auto. split.
    { apply (proj1 (F3 z LT G) (VPtr l) (a, d) AV). now rewrite IV. }
    split; auto. split. { pose proof (G3 z LT G d AD) as H. now rewrite ID in H. }
    split; auto. apply (proj2 (K3 z LT G) (VPtr l) [a] d AV); [|eapply stx_odd; eauto]. rewrite IV. econstructor; [exact PV|constructor].
  Qed.
End Ready.

(** ** A store that meets the hypotheses *)
Definition tx_prim (n : N) (vs : list val) (h : heap) : option presult :=
  match n, vs with
  | 0%N, [v] => Some (PrimVal (of_bool (syntaxp h v)) h)
  | 1%N, [v] => Some (match datum h v with Some e => PrimVal e h | None => PrimErr (EArg "syntax-e" v) h end)
  | 2%N, [v] => Some (PrimVal (of_bool (symbolp v)) h)
  | 3%N, [v] => Some (PrimVal (of_bool (negb (truthy v))) h)
  | 4%N, [who; _; v] => Some (PrimErr (EArg (ex_text who) v) h)
  | 5%N, [a; b] => Some (PrimVal (of_bool (eqp a b)) h)
  | 6%N, [v] => Some (PrimVal (of_bool (nullp v)) h)
  | 7%N, [v] => Some (PrimVal (of_bool (pairp h v)) h)
  | 8%N, [v] => Some (PrimVal (of_bool (nullp (snd (chain (List.length h) h v)))) h)
  | 9%N, [v] => Some (match pair_at h v with Some (a, d) => PrimVal a h | None => PrimErr (EArg "car" v) h end)
  | 10%N, [v] => Some (match pair_at h v with Some (a, d) => PrimVal d h | None => PrimErr (EArg "cdr" v) h end)
  | 11%N, [a; d] => Some (PrimVal (VPtr (List.length h)) (h ++ [CPair a d]))
  | 12%N, [k; l] => Some (ex_new_list (fst (chain (List.length h) h k) ++ fst (chain (List.length h) h l)) h)
  | _, _ => None
  end.
Definition tx_arities : list nat := [1; 1; 1; 1; 3; 2; 1; 1; 1; 1; 1; 2; 2].
Definition tx_lit (o : obj) : val :=
  match o with ONull => VNull | OFalse => VFalse | OTrue => VTrue | OFix z => VFix z | OSym n => VSym n | _ => VVoid end.
(** It has a syntax object for the symbol x. *)
Definition tx_before : store := ex_install 0 (combine stx_base tx_arities) (Store [CSyntax (VSym ["x"%char]) VFalse] [] [] []).
Lemma tx_good : good tx_before.
Proof.
  intros l p H. assert (K : forall ps, proc_ref l ps = Some p -> In l (map fst ps)).
  { induction ps as [|[k q] ps IH]; cbn; [discriminate|]. destruct (Nat.eqb_spec k l); auto. }
  apply K in H. revert H. vm_compute. intuition lia.
Qed.
Lemma tx_shaped : Forall2 (shaped tx_lit) stx_texts stx_defined.
Proof.
  unfold stx_texts, stx_defined.
  repeat match goal with
  | |- Forall2 _ [] [] => constructor
  | |- Forall2 _ (?t :: _) _ =>
      constructor; [let e := eval vm_compute in (code_of tx_lit t) in
        match e with EDefine _ (ELam ?fm ?body) => exists fm, body; vm_cast_no_check (eq_refl e) end|]
  end.
Qed.
Lemma tx_once : NoDup stx_defined.
Proof. apply distinct_nodup. reflexivity. Qed.
Lemma tx_has s x l n k (B : store -> val -> Prop) :
  loads tx_prim tx_lit tx_before stx_texts s -> existsb (String.eqb x) stx_defined = false ->
  glob_ref (Id x) (glob_of tx_before) = Some (VPtr l) -> proc_ref l (procs_of tx_before) = Some (PPrim n k) ->
  (forall z, good z -> proc_at (VPtr l) (procs_of z) = Some (PPrim n k) -> B z (VPtr l)) -> has stx_names s x B.
Proof.
  intros L I E Q H.
  destruct (loads_all tx_prim tx_lit (fun _ _ => ErrNotProc VNull) (fun _ _ => ErrNotProc VNull) _ _ tx_shaped tx_once _ _ tx_good L) as (_ & I2 & I3 & _).
  exists (VPtr l). split; [rewrite I3; auto|].
  - intros J. assert (T : existsb (String.eqb x) stx_defined = true) by (apply existsb_exists; exists x; split; auto; apply String.eqb_refl). congruence.
  - split; [discriminate|]. intros z [L1 _] G. apply H; auto. now apply L1, I2.
Qed.
Lemma tx_value s f n vs v :
  proc_at f (procs_of s) = Some (PPrim n (List.length vs)) -> List.length vs <= 6 -> tx_prim n vs (heap_of s) = Some (PrimVal v (heap_of s)) ->
  returns tx_prim s f vs v.
Proof. intros P L E. exists (set_heap (heap_of s) s). split; [eapply ApPrim; eauto|apply grows_set_heap, extends_refl]. Qed.
Lemma tx_raises s f n vs e :
  proc_at f (procs_of s) = Some (PPrim n (List.length vs)) -> List.length vs <= 6 -> tx_prim n vs (heap_of s) = Some (PrimErr e (heap_of s)) ->
  raises tx_prim s f vs (ErrPrim e).
Proof. intros P L E. exists (set_heap (heap_of s) s). split; [eapply ApPrimErr; eauto|apply grows_set_heap, extends_refl]. Qed.
Lemma tx_relies s : loads tx_prim tx_lit tx_before stx_texts s -> stx_relies tx_prim ex_complaint s.
Proof.
  intros L. constructor; match goal with |- has _ _ ?x _ =>
    let g := eval vm_compute in (glob_ref (Id x) (glob_of tx_before)) in
    match g with Some (VPtr ?l) => let p := eval vm_compute in (proc_ref l (procs_of tx_before)) in
      match p with Some (PPrim ?n ?k) => apply (tx_has s x l n k); [exact L|reflexivity|vm_compute; reflexivity|vm_compute; reflexivity|intros z GD P] end end end.
  all: try solve [intros v; eapply tx_value; [exact P|cbn; lia|reflexivity]|intros a b; eapply tx_value; [exact P|cbn; lia|reflexivity]].
  - split.
    + intros v e E. eapply tx_value; [exact P|cbn; lia|]. cbn [tx_prim]. now rewrite E.
    + intros v _ E. eapply tx_raises; [exact P|cbn; lia|]. cbn [tx_prim]. now rewrite E.
  - intros who what v. eapply tx_raises; [exact P|cbn; lia|reflexivity].
  - split.
    + intros l xs H. eapply tx_value; [exact P|cbn; lia|]. cbn [tx_prim]. now rewrite (chain_list _ _ _ H).
    + intros l xs t R [T1 T2]. eapply tx_value; [exact P|cbn; lia|]. cbn [tx_prim]. pose proof (no_pair_at _ _ T1) as E.
      rewrite (chain_reach _ _ _ _ R E) by (eapply reach_length; eauto). cbn [snd]. destruct t; auto. congruence.
  - split.
    + intros v a d E. eapply tx_value; [exact P|cbn; lia|]. cbn [tx_prim]. now rewrite E.
    + intros v N. eapply tx_raises; [exact P|cbn; lia|]. cbn [tx_prim]. now rewrite (no_pair_at _ _ N).
  - split.
    + intros v a d E. eapply tx_value; [exact P|cbn; lia|]. cbn [tx_prim]. now rewrite E.
    + intros v N. eapply tx_raises; [exact P|cbn; lia|]. cbn [tx_prim]. now rewrite (no_pair_at _ _ N).
  - intros a d. exists (VPtr (List.length (heap_of z))), (set_heap (heap_of z ++ [CPair a d]) z).
    split; [eapply ApPrim; [exact P|cbn; lia|reflexivity]|]. split; [apply grows_set_heap, extends_app|]. cbn. now rewrite nth_error_app2, Nat.sub_diag by lia.
  - intros k l xs ys H1 H2. pose proof (new_list_at (xs ++ ys) (heap_of z)) as NL. destruct (new_list (xs ++ ys) (heap_of z)) as [v h] eqn:K.
    exists v, (set_heap h z). split; [|split; [|exact NL]].
    + eapply ApPrim; [exact P|cbn; lia|]. cbn [tx_prim]. rewrite (chain_list _ _ _ H1), (chain_list _ _ _ H2). cbn [fst]. unfold ex_new_list. now rewrite K.
    + apply grows_set_heap. unfold new_list in K. injection K as _ <-. apply extends_app.
Qed.
Example stx_ready_example : exists s, loads tx_prim tx_lit tx_before stx_texts s /\ good s /\ stx_ready tx_prim tx_lit ex_complaint s.
Proof.
  destruct (loads_some tx_prim tx_lit _ _ tx_shaped tx_before) as [s L]. exists s. split; auto.
  destruct (loads_all tx_prim tx_lit (fun _ _ => ErrNotProc VNull) (fun _ _ => ErrNotProc VNull) _ _ tx_shaped tx_once _ _ tx_good L) as (G & _ & _ & F).
  split; auto. constructor; auto; [repeat split|now apply tx_relies].
Qed.
(** #'x and #'(x . y) in any later store that has them: (identifier? #'x), (stx-pair? #'(x . y)), (stx-car #'x). *)
Example stx_calls s z i p q y a :
  stx_ready tx_prim tx_lit ex_complaint s -> later stx_names s z -> good z ->
  nth_error (heap_of z) i = Some (CSyntax (VSym ["x"%char]) a) -> nth_error (heap_of z) p = Some (CSyntax (VPtr q) a) -> nth_error (heap_of z) q = Some (CPair (VPtr i) y) ->
  exists f g k, glob_ref (Id "identifier?") (glob_of z) = Some f /\ returns tx_prim z f [VPtr i] VTrue /\ returns tx_prim z f [VPtr p] VFalse /\
    glob_ref (Id "stx-pair?") (glob_of z) = Some g /\ returns tx_prim z g [VPtr p] VTrue /\
    glob_ref (Id "stx-car") (glob_of z) = Some k /\ returns tx_prim z k [VPtr p] (VPtr i) /\ raises tx_prim z k [VPtr i] (ex_complaint (sym "car") (VSym ["x"%char])).
Proof.
  intros RD LT G HI HP HQ. destruct (C83_identifier _ _ _ _ RD) as (f & F1 & _ & F3). destruct (C83_stx_pair _ _ _ _ RD) as (g & G1 & _ & G3).
  destruct (C83_stx_car _ _ _ _ RD) as (k & K1 & _ & K3).
  assert (DI : datum (heap_of z) (VPtr i) = Some (VSym ["x"%char])) by (cbn; now rewrite HI). assert (DP : datum (heap_of z) (VPtr p) = Some (VPtr q)) by (cbn; now rewrite HP).
  assert (II : inside (heap_of z) (VPtr i) = VSym ["x"%char]) by (unfold inside; now rewrite DI). assert (IP : inside (heap_of z) (VPtr p) = VPtr q) by (unfold inside; now rewrite DP).
  assert (AI : alive (heap_of z) (VPtr i)) by (split; [cbn; apply nth_error_Some; congruence|rewrite II; exact I]).
  assert (AP : alive (heap_of z) (VPtr p)) by (split; [|rewrite IP]; cbn; apply nth_error_Some; congruence).
  assert (PQ : pair_at (heap_of z) (VPtr q) = Some (VPtr i, y)) by (cbn; now rewrite HQ).
  assert (NM : forall x, existsb (String.eqb x) stx_names = true -> glob_ref (Id x) (glob_of z) = glob_ref (Id x) (glob_of s)).
  { intros x H. apply (proj2 LT). now apply existsb_in. }
  exists f, g, k. rewrite !NM by reflexivity. split; auto. split.
  { pose proof (F3 z LT G _ AI) as H. unfold identifier, syntaxp in H. now rewrite DI, II in H. }
  split. { pose proof (F3 z LT G _ AP) as H. unfold identifier, syntaxp in H. now rewrite DP, IP in H. }
  split; auto. split. { pose proof (G3 z LT G _ AP) as H. unfold pairp in H. now rewrite IP, PQ in H. }
  split; auto. split. { apply (proj1 (K3 z LT G) (VPtr p) (VPtr i, y) AP). now rewrite IP. }
  exact (proj1 (proj2 (K3 z LT G)) (VPtr i) _ AI DI eq_refl).
Qed.

(** Such syntax objects, and a pair that [C83_list_of_tails_refuted] speaks about, made after the texts were evaluated. *)
Example stx_objects_example : exists s z i p q n c,
  stx_ready tx_prim tx_lit ex_complaint s /\ later stx_names s z /\ good z /\
  nth_error (heap_of z) i = Some (CSyntax (VSym ["x"%char]) VFalse) /\ nth_error (heap_of z) p = Some (CSyntax (VPtr q) VFalse) /\
  nth_error (heap_of z) q = Some (CPair (VPtr i) (VFix 7)) /\ pair_at (heap_of z) c = Some (VPtr i, n) /\ datum (heap_of z) n = Some VNull.
Proof.
  destruct stx_ready_example as (s & _ & G & RD). set (m := List.length (heap_of s)).
  set (cells := [CSyntax (VSym ["x"%char]) VFalse; CPair (VPtr m) (VFix 7); CSyntax (VPtr (m + 1)) VFalse; CSyntax VNull VFalse; CPair (VPtr m) (VPtr (m + 3))]).
  assert (GR : grows s (set_heap (heap_of s ++ cells) s)) by apply grows_set_heap, extends_app.
  assert (AT : forall k, nth_error (heap_of s ++ cells) (m + k) = nth_error cells k).
  { intros k. rewrite nth_error_app2 by (unfold m; lia). f_equal. unfold m. lia. }
  exists s, (set_heap (heap_of s ++ cells) s), m, (m + 2), (m + 1), (VPtr (m + 3)), (VPtr (m + 4)).
  split; auto. split; [now apply grows_later|]. split; [exact (grows_good _ _ GR G)|]. cbn [heap_of set_heap pair_at datum].
  pose proof (AT 0) as A0. rewrite Nat.add_0_r in A0. rewrite A0, !AT. repeat split.
Qed.

Print Assumptions C83_texts.
Print Assumptions C83_texts_read.
Print Assumptions C83_identifier.
Print Assumptions C83_free_identifier.
Print Assumptions C83_stx_null.
Print Assumptions C83_stx_pair.
Print Assumptions C83_stx_list.
Print Assumptions C83_stx_car.
Print Assumptions C83_stx_cdr.
Print Assumptions C83_cons_f.
Print Assumptions C83_append_f.
Print Assumptions C83_list_of_tails_refuted.
Print Assumptions stx_ready_example.
Print Assumptions stx_objects_example.
