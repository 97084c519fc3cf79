(** C84: what split-stx-list does when its text is read, compiled and evaluated.  The
    specification is the first part of StxSplitProofs.v. *)
From Coq Require Import ZArith NArith Bool Ascii String List Arith Lia.
From Verif Require Import Base Heap HeapM Ast Reader Sem Check Lists SimLemmas LibText LibBoot LibTextProofs LibTextRun LibTextThm
  PathTextProofs PathTextRun StxText StxTextProofs StxTextThm StxSplit StxSplitProofs.
Import ListNotations.
Local Open Scope list_scope.

(** The texts that must have been evaluated, in the order of the file. *)
Definition split_texts : list string := [stx_null_text; stx_pair_text; stx_car_text; stx_cdr_text; split_stx_list_text].
Definition split_defined : list string := ["stx-null?"; "stx-pair?"; "stx-car"; "stx-cdr"; "split-stx-list"]%string.
Theorem C84_texts : map (nth_error boot_min) [64; 65; 68; 69; 76] = map Some split_texts.
Proof. vm_compute. reflexivity. Qed.
Theorem C84_text_read : exists o, read_object 400 (list_ascii_of_string split_stx_list_text) = ROk o [].
Proof. eexists. vm_compute. reflexivity. Qed.

Record split_ready (prim : N -> list val -> heap -> option presult) (lit : obj -> val) (complaint : val -> val -> err) (s : store) : Prop := SplitReady {
  wr_literals : literals lit;
  wr_true : lit OTrue = VTrue;
  wr_loaded : Forall (loaded lit s) split_texts;
  wr_syntax : has split_names s "syntax?" (is_syntax prim);
  wr_syntax_e : has split_names s "syntax-e" (is_syntax_e prim complaint);
  wr_null : has split_names s "null?" (is_null prim);
  wr_pair : has split_names s "pair?" (is_pair prim);
  wr_car : has split_names s "car" (is_car prim complaint);
  wr_cdr : has split_names s "cdr" (is_cdr prim complaint);
  wr_cons : has split_names s "cons" (is_cons prim);
  wr_less : has split_names s "<" (is_below prim);
  wr_same : has split_names s "=" (is_same_number prim);
  wr_plus : has split_names s "+" (is_plus_one prim);
  wr_empty : has split_names s "null" is_empty }.

Section Ready.
  Variable prim : N -> list val -> heap -> option presult.
  Variable lit : obj -> val.
  Variable complaint : val -> val -> err.
  Variable s : store.
  Hypothesis RD : split_ready prim lit complaint s.
  Lemma split_loaded t : In t split_texts -> loaded lit s t.
  Proof. pose proof (wr_loaded _ _ _ _ RD) as F. rewrite Forall_forall in F. auto. Qed.
  Lemma split_incl : incl stx_names split_names.
  Proof. apply incl_appl, incl_refl. Qed.
  Ltac text := apply split_loaded; unfold split_texts; cbn [In]; repeat (first [left; reflexivity|right]).
  Ltac lib := first [apply split_incl|apply incl_refl|text|eapply RD|apply RD|eassumption].
  Theorem C84_split : has split_names s "split-stx-list" (is_split prim).
  Proof.
    assert (H1 : has split_names s "stx-pair?" (is_stx_pair prim)) by (eapply (stx_pair_ok split_names) with (lit := lit); lib).
    assert (H2 : has split_names s "stx-null?" (is_stx_null prim)) by (eapply (stx_null_ok split_names) with (lit := lit); lib).
    assert (H3 : has split_names s "stx-car" (is_stx_part prim complaint "car" fst)) by (eapply (stx_car_ok split_names) with (lit := lit); lib).
    assert (H4 : has split_names s "stx-cdr" (is_stx_part prim complaint "cdr" snd)) by (eapply (stx_cdr_ok split_names) with (lit := lit); lib).
    eapply (split_ok split_names) with (lit := lit); lib.
  Qed.

  (** A list with at least [n] elements is cut before its last [n]. *)
  Theorem C84_proper z v front back w t p :
    later split_names s z -> good z -> walk (heap_of z) v (front ++ back) t -> walk (heap_of z) v front w -> walk (heap_of z) w back t ->
    inside (heap_of z) t = VNull -> truthy p = true -> p <> VUnbound -> (Z.of_nat (List.length back) < 2 ^ 62)%Z ->
    exists f pre z', glob_ref (Id "split-stx-list") (glob_of z) = Some f /\
      apply prim z f [v; VFix (Z.of_nat (List.length back)); p] (RVals [pre; w; VTrue]) z' /\ grows z z' /\ list_at (heap_of z') pre front.
  Proof.
    intros LT G W W1 W2 T TP NP BN. destruct C84_split as (f & F1 & _ & F3).
    destruct (F3 z LT G v _ t (Z.of_nat (List.length back)) p W) as (fr & bk & pre & w' & z' & A & GR & E & L & V1 & V2 & LP); auto.
    { now rewrite T. }
    unfold end_count in *. rewrite TP, T in *. cbn [nullp] in *. rewrite app_length in L.
    assert (LB : List.length bk = List.length back) by lia.
    assert (LF : List.length fr = List.length front) by (apply (f_equal (@List.length val)) in E; rewrite !app_length in E; lia).
    assert (fr = front /\ bk = back) as [-> ->].
    { clear - E LF. revert front E LF. induction fr as [|a fr IH]; intros [|b front] E LF; try discriminate; auto.
      cbn in E. injection E as -> E. destruct (IH front) as [-> ->]; auto. }
    assert (w' = w) as ->.
    { clear - W1 V1. revert w' V1. induction W1 as [|? ? ? ? ? ? P1 ? IH]; intros u V; inversion V as [|? ? ? ? ? ? P2 V']; subst; auto.
      rewrite P1 in P2. injection P2 as <-. auto. }
    replace (0 + Z.of_nat (List.length back) =? Z.of_nat (List.length back))%Z with true in A by (symmetry; apply Z.eqb_eq; lia).
    exists f, pre, z'. split; [rewrite (proj2 LT); auto; apply existsb_in; reflexivity|auto].
  Qed.

  (** The third argument is to demand a proper list.  The end of a list that is not counts for -1,
      where the source says that it should count for minus infinity: with more than [n] pairs
      split-stx-list still answers that it has found what it was asked for. *)
  Theorem C84_demands_proper_refuted z v front back t p n :
    later split_names s z -> good z -> walk (heap_of z) v (front ++ back) t -> pairp (heap_of z) (inside (heap_of z) t) = false ->
    inside (heap_of z) t <> VNull -> truthy p = true -> p <> VUnbound -> List.length back = S n -> (Z.of_nat n < 2 ^ 62)%Z ->
    exists f pre w z', glob_ref (Id "split-stx-list") (glob_of z) = Some f /\
      apply prim z f [v; VFix (Z.of_nat n); p] (RVals [pre; w; VTrue]) z' /\ grows z z' /\ list_at (heap_of z') pre front.
  Proof.
    intros LT G W NPR NT TP NP LB BN. destruct C84_split as (f & F1 & _ & F3).
    destruct (F3 z LT G v _ t (Z.of_nat n) p W NPR NP BN) as (fr & bk & pre & w & z' & A & GR & E & L & V1 & V2 & LP).
    assert (EC : end_count (heap_of z) p t = (-1)%Z) by (unfold end_count; rewrite TP; destruct (inside (heap_of z) t); auto; congruence).
    rewrite EC, app_length in *. assert (LK : List.length bk = S n) by lia.
    assert (LF : List.length fr = List.length front) by (apply (f_equal (@List.length val)) in E; rewrite !app_length in E; lia).
    assert (fr = front) as ->.
    { clear - E LF. revert front E LF. induction fr as [|a fr IH]; intros [|b front] E LF; try discriminate; auto. cbn in E. injection E as -> E. f_equal. auto. }
    rewrite LK in A. replace (-1 + Z.of_nat (S n) =? Z.of_nat n)%Z with true in A by (symmetry; apply Z.eqb_eq; lia).
    exists f, pre, w, z'. split; [rewrite (proj2 LT); auto; apply existsb_in; reflexivity|auto].
  Qed.
End Ready.

(** ** A store that meets the hypotheses *)
Definition wx_prim (n : N) (vs : list val) (h : heap) : option presult :=
  match n, vs with
  | 13%N, [VFix a; VFix b] => Some (PrimVal (of_bool (a <? b)%Z) h)
  | 14%N, [VFix a; VFix b] => Some (PrimVal (of_bool (a =? b)%Z) h)
  | 15%N, [VFix a; VFix b] => Some (PrimVal (VFix (a + b)) h)
  | _, _ => tx_prim n vs h
  end.
Definition wx_before : store :=
  set_glob (Id "null") VNull (ex_install 0 (combine (stx_base ++ ["<"; "="; "+"]%string) (tx_arities ++ [2; 2; 2])) (Store [] [] [] [])).
Lemma wx_good : good wx_before.
Proof.
  intros l p H. assert (K : forall ps, proc_ref l ps = Some p -> In l (map fst ps)).
  { induction ps as [|[k q] ps IH]; cbn; [discriminate|]. destruct (Nat.eqb_spec k l); auto. }
  apply K in H. revert H. vm_compute. intuition lia.
Qed.
Lemma wx_shaped : Forall2 (shaped tx_lit) split_texts split_defined.
Proof.
  unfold split_texts, split_defined.
  repeat match goal with
  | |- Forall2 _ [] [] => constructor
  | |- Forall2 _ (?t :: _) _ =>
      constructor; [let e := eval vm_compute in (code_of tx_lit t) in
        match e with EDefine _ (ELam ?fm ?body) => exists fm, body; vm_cast_no_check (eq_refl e) end|]
  end.
Qed.
Lemma wx_once : NoDup split_defined.
Proof. apply distinct_nodup. reflexivity. Qed.
Lemma wx_has s x l n k (B : store -> val -> Prop) :
  loads wx_prim tx_lit wx_before split_texts s -> existsb (String.eqb x) split_defined = false ->
  glob_ref (Id x) (glob_of wx_before) = Some (VPtr l) -> proc_ref l (procs_of wx_before) = Some (PPrim n k) ->
  (forall z, good z -> proc_at (VPtr l) (procs_of z) = Some (PPrim n k) -> B z (VPtr l)) -> has split_names s x B.
Proof.
  intros L I E Q H.
  destruct (loads_all wx_prim tx_lit (fun _ _ => ErrNotProc VNull) (fun _ _ => ErrNotProc VNull) _ _ wx_shaped wx_once _ _ wx_good L) as (_ & I2 & I3 & _).
  exists (VPtr l). split; [rewrite I3; auto|].
  - intros J. assert (T : existsb (String.eqb x) split_defined = true) by (apply existsb_exists; exists x; split; auto; apply String.eqb_refl). congruence.
  - split; [discriminate|]. intros z [L1 _] G. apply H; auto. now apply L1, I2.
Qed.
Lemma wx_value s f n vs v :
  proc_at f (procs_of s) = Some (PPrim n (List.length vs)) -> List.length vs <= 6 -> wx_prim n vs (heap_of s) = Some (PrimVal v (heap_of s)) ->
  returns wx_prim s f vs v.
Proof. intros P L E. exists (set_heap (heap_of s) s). split; [eapply ApPrim; eauto|apply grows_set_heap, extends_refl]. Qed.
Lemma wx_raises s f n vs e :
  proc_at f (procs_of s) = Some (PPrim n (List.length vs)) -> List.length vs <= 6 -> wx_prim n vs (heap_of s) = Some (PrimErr e (heap_of s)) ->
  raises wx_prim s f vs (ErrPrim e).
Proof. intros P L E. exists (set_heap (heap_of s) s). split; [eapply ApPrimErr; eauto|apply grows_set_heap, extends_refl]. Qed.
Lemma wx_null s : loads wx_prim tx_lit wx_before split_texts s -> has split_names s "null" is_empty.
Proof.
  intros L. destruct (loads_all wx_prim tx_lit (fun _ _ => ErrNotProc VNull) (fun _ _ => ErrNotProc VNull) _ _ wx_shaped wx_once _ _ wx_good L) as (_ & _ & I3 & _).
  exists VNull. split; [rewrite I3; [vm_compute; reflexivity|cbn; intuition discriminate]|]. split; [discriminate|reflexivity].
Qed.
Example split_ready_example : exists s, loads wx_prim tx_lit wx_before split_texts s /\ good s /\ split_ready wx_prim tx_lit ex_complaint s.
Proof.
  destruct (loads_some wx_prim tx_lit _ _ wx_shaped wx_before) as [s L]. exists s. split; auto.
  destruct (loads_all wx_prim tx_lit (fun _ _ => ErrNotProc VNull) (fun _ _ => ErrNotProc VNull) _ _ wx_shaped wx_once _ _ wx_good L) as (G & _ & _ & F).
  split; auto. constructor; auto; [repeat split|..|now apply wx_null]; match goal with |- has _ _ ?x _ =>
    let g := eval vm_compute in (glob_ref (Id x) (glob_of wx_before)) in
    match g with Some (VPtr ?l) => let p := eval vm_compute in (proc_ref l (procs_of wx_before)) in
      match p with Some (PPrim ?n ?k) => apply (wx_has s x l n k); [exact L|reflexivity|vm_compute; reflexivity|vm_compute; reflexivity|intros z GD P] end end end.
  all: try solve [intros v; eapply wx_value; [exact P|cbn; lia|reflexivity]|intros a b; eapply wx_value; [exact P|cbn; lia|reflexivity]].
  - split.
    + intros v e E. eapply wx_value; [exact P|cbn; lia|]. cbn [wx_prim tx_prim]. now rewrite E.
    + intros v _ E. eapply wx_raises; [exact P|cbn; lia|]. cbn [wx_prim tx_prim]. now rewrite E.
  - split.
    + intros v a d E. eapply wx_value; [exact P|cbn; lia|]. cbn [wx_prim tx_prim]. now rewrite E.
    + intros v N. eapply wx_raises; [exact P|cbn; lia|]. cbn [wx_prim tx_prim]. now rewrite (no_pair_at _ _ N).
  - split.
    + intros v a d E. eapply wx_value; [exact P|cbn; lia|]. cbn [wx_prim tx_prim]. now rewrite E.
    + intros v N. eapply wx_raises; [exact P|cbn; lia|]. cbn [wx_prim tx_prim]. now rewrite (no_pair_at _ _ N).
  - intros a d. exists (VPtr (List.length (heap_of z))), (set_heap (heap_of z ++ [CPair a d]) z).
    split; [eapply ApPrim; [exact P|cbn; lia|reflexivity]|]. split; [apply grows_set_heap, extends_app|]. cbn. now rewrite nth_error_app2, Nat.sub_diag by lia.
  - intros a _ _. eapply wx_value; [exact P|cbn; lia|reflexivity].
Qed.
(** (1 2 . 3), made after the texts were evaluated: (split-stx-list '(1 2 . 3) 0 #t) says that it is
    a proper list with nothing after (1). *)
Example split_improper_example : exists s z v f pre w z',
  split_ready wx_prim tx_lit ex_complaint s /\ later split_names s z /\ good z /\ walk (heap_of z) v [VFix 1; VFix 2] (VFix 3) /\
  glob_ref (Id "split-stx-list") (glob_of z) = Some f /\
  apply wx_prim z f [v; VFix 0; VTrue] (RVals [pre; w; VTrue]) z' /\ list_at (heap_of z') pre [VFix 1].
Proof.
  destruct split_ready_example as (s & _ & G & RD). set (m := List.length (heap_of s)).
  set (cells := [CPair (VFix 2) (VFix 3); CPair (VFix 1) (VPtr m)]). set (z := set_heap (heap_of s ++ cells) s).
  assert (GR : grows s z) by apply grows_set_heap, extends_app.
  assert (AT : forall k, nth_error (heap_of z) (m + k) = nth_error cells k).
  { intros k. cbn. rewrite nth_error_app2 by (unfold m; lia). f_equal. unfold m. lia. }
  assert (A0 : nth_error (heap_of z) m = Some (CPair (VFix 2) (VFix 3))) by (rewrite <- (Nat.add_0_r m) at 1; exact (AT 0)).
  pose proof (AT 1) as A1. assert (LT := grows_later split_names _ _ GR). assert (GZ := grows_good _ _ GR G).
  assert (IN : forall l a d, nth_error (heap_of z) l = Some (CPair a d) -> alive (heap_of z) (VPtr l) /\ pair_at (heap_of z) (inside (heap_of z) (VPtr l)) = Some (a, d)).
  { intros l a d E. assert (D : inside (heap_of z) (VPtr l) = VPtr l) by (unfold inside, datum; now rewrite E).
    split; [split; [|rewrite D]; cbn [live]; apply nth_error_Some; congruence|rewrite D; cbn [pair_at]; now rewrite E]. }
  assert (W : walk (heap_of z) (VPtr (m + 1)) [VFix 1; VFix 2] (VFix 3)).
  { destruct (IN _ _ _ A0), (IN _ _ _ A1). econstructor; [eassumption|eassumption|]. econstructor; [eassumption|eassumption|]. constructor. split; exact I. }
  destruct (C84_demands_proper_refuted _ _ _ _ RD z (VPtr (m + 1)) [VFix 1] [VFix 2] (VFix 3) VTrue 0 LT GZ W) as (f & pre & w & z' & F & A & _ & LP);
    auto; try discriminate; try (cbn; lia).
  exists s, z, (VPtr (m + 1)), f, pre, w, z'. auto 10.
Qed.

Print Assumptions C84_texts.
Print Assumptions C84_text_read.
Print Assumptions C84_split.
Print Assumptions C84_proper.
Print Assumptions C84_demands_proper_refuted.
Print Assumptions split_ready_example.
Print Assumptions split_improper_example.
