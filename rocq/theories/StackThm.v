(** C38: the stack, and the stack side of C36 and C37. *)
From Coq Require Import NArith Bool List Arith Lia.
Import ListNotations.
From Verif Require Import Stack.
Local Open Scope N_scope.
Local Open Scope list_scope.
Local Arguments N.add : simpl never.
Local Arguments N.mul : simpl never.
Local Arguments N.sub : simpl never.
Local Arguments N.of_nat : simpl never.
Local Arguments N.leb : simpl never.
Local Arguments N.eqb : simpl never.

(** ** Specification: a list of frames, the running one first *)
Section Spec.
  Variables V R : Type.
  Record aframe : Type := AF { a_ret : option R; a_args : list V }.
  Notation lenN l := (N.of_nat (List.length l)).

  (** Words in use: one for the return address and one for each argument. *)
  Fixpoint words (a : list aframe) : N :=
    match a with [] => 0 | f :: q => 1 + lenN (a_args f) + words q end.

  Definition astep (a : list aframe) (o : op V R) : option (list aframe * list (obs V R)) :=
    match a with
    | [] => None
    | f :: q =>
        match o with
        | Check _ _ _ => Some (a, [])
        | Push _ _ v => Some (AF (a_ret f) (a_args f ++ [v]) :: q, [])
        | PushAll _ _ vs => Some (AF (a_ret f) (a_args f ++ vs) :: q, [])
        | Pop _ _ => match rev (a_args f) with
                     | [] => None
                     | v :: vs => Some (AF (a_ret f) (rev vs) :: q, [Popped _ _ (WVal _ _ v)])
                     end
        | Call _ _ r => Some (AF (Some r) [] :: a, [])
        | Ret _ _ => match q with
                     | [] => Some (a, [Exited _ _])
                     | _ => Some (q, [Resumed _ _ (WRet _ _ (a_ret f))])
                     end
        | Clear _ _ => Some (AF (a_ret f) [] :: q, [])
        | Spread _ _ vs => match a_args f with
                           | _ :: b :: mid => Some (AF (a_ret f) (removelast (b :: mid) ++ vs) :: q, [])
                           | _ => None
                           end
        end
    end.
  Fixpoint arun (a : list aframe) (os : list (op V R)) : option (list aframe * list (obs V R)) :=
    match os with
    | [] => Some (a, [])
    | o :: q =>
        match astep a o with
        | Some (a1, x) => match arun a1 q with Some (a2, y) => Some (a2, x ++ y) | None => None end
        | None => None
        end
    end.
  (** Before the first call: one frame without return address. *)
  Definition abegin : list aframe := [AF None []].

  (** Every state on the way uses at most [n] words, with those that are asked
      for ahead of time. *)
  Fixpoint within (n : N) (a : list aframe) (os : list (op V R)) : Prop :=
    match os with
    | [] => True
    | o :: q =>
        match o with Check _ _ k => words a + k <= n | _ => True end /\
        match astep a o with Some (a', _) => words a' <= n /\ within n a' q | None => False end
    end.
End Spec.
Arguments AF {V R} _ _.
Arguments a_ret {V R} _.
Arguments a_args {V R} _.
Arguments words {V R} _.
Arguments astep {V R} _ _.
Arguments arun {V R} _ _.
Arguments abegin {V R}.
Arguments within {V R} _ _ _.
Notation lenN l := (N.of_nat (List.length l)).

(** The number of words of the first segment. *)
Definition segment_words : N := stack_bytes / word_bytes.

Section Refine.
  Variables V R : Type.
  Variable addr : nat -> N.
  Notation tc := (tc V R).
  Notation word := (word V R).

  Fixpoint frames (f : N -> word) (off ac : N) (a : list (aframe V R)) (cc : list scont) : Prop :=
    match a with
    | [] => False
    | x :: q =>
        f off = WRet V R (a_ret x) /\ ac = lenN (a_args x) /\
        (forall i v, nth_error (a_args x) i = Some v -> f (off + 1 + N.of_nat i) = WVal V R v) /\
        match q with
        | [] => off = 0 /\ cc = [] /\ a_ret x = None
        | _ => exists off' ac' cc', cc = SCont (0%nat, off') ac' :: cc' /\ off = off' + 1 + ac' /\ frames f off' ac' q cc'
        end
    end.
  Record rel (a : list (aframe V R)) (t : tc) : Prop := Rel {
    r_base : t_base V R t = 0%nat; r_link : t_link V R t = []; r_esp : t_esp V R t = limit addr 0 stack_bytes;
    r_mem : exists f off, t_mem V R t = [Seg V R stack_bytes f] /\ t_sfp V R t = (0%nat, off) /\ frames f off (t_ac V R t) a (t_cc V R t) }.

  Lemma frames_words f off ac a cc : frames f off ac a cc -> words a = off + 1 + ac.
  Proof.
    revert off ac cc. induction a as [|x q IH]; simpl; intros off ac cc H; [contradiction|].
    destruct H as [_ [L [_ H]]]. rewrite <- L. destruct q as [|y q'].
    - destruct H as [-> _]. simpl. lia.
    - destruct H as [off' [ac' [cc' [_ [-> F]]]]]. rewrite (IH _ _ _ F). lia.
  Qed.
  Lemma frames_bottom f off ac a cc : frames f off ac a cc -> f 0 = WRet V R None.
  Proof.
    revert off ac cc. induction a as [|x q IH]; simpl; intros off ac cc H; [contradiction|].
    destruct H as [E [_ [_ H]]]. destruct q as [|y q'].
    - destruct H as [-> [_ RN]]. rewrite E, RN. reflexivity.
    - destruct H as [off' [ac' [cc' [_ [_ F]]]]]. apply (IH _ _ _ F).
  Qed.
  Lemma frames_low f g off ac a cc : frames f off ac a cc -> (forall i, i < off + 1 + ac -> g i = f i) -> frames g off ac a cc.
  Proof.
    revert off ac cc. induction a as [|x q IH]; simpl; intros off ac cc H E; [contradiction|].
    destruct H as [F [L [A H]]]. split; [rewrite E by lia; auto|]. split; auto. split.
    - intros i v N. rewrite E; auto. assert (K : (i < length (a_args x))%nat) by (apply nth_error_Some; congruence). lia.
    - destruct q as [|y q']; auto. destruct H as [off' [ac' [cc' [-> [-> F']]]]].
      exists off', ac', cc'. split; auto. split; auto. apply (IH _ _ _ F'). intros i Li. apply E. lia.
  Qed.
  (** Replacing the arguments of the running frame. *)
  Lemma frames_top f g off ac ra args q cc args' :
    frames f off ac (AF ra args :: q) cc -> (forall i, i <= off -> g i = f i) ->
    (forall i v, nth_error args' i = Some v -> g (off + 1 + N.of_nat i) = WVal V R v) ->
    frames g off (lenN args') (AF ra args' :: q) cc.
  Proof.
    simpl. intros [F [L [A H]]] E A'. split; [rewrite E by lia; auto|]. split; auto. split; auto.
    destruct q as [|y q']; auto. destruct H as [off' [ac' [cc' [-> [-> F']]]]].
    exists off', ac', cc'. split; auto. split; auto. eapply frames_low; [exact F'|]. intros i Li. apply E. lia.
  Qed.

  Definition updf (f : N -> word) (i : N) (w : word) : N -> word := fun j => if j =? i then w else f j.
  Lemma write_ok t f off i w :
    t_mem V R t = [Seg V R stack_bytes f] -> off + i < segment_words ->
    write V R t (0%nat, off) i w =
    Some (Tc V R (t_ac V R t) (t_sfp V R t) (t_esp V R t) (t_cc V R t) (t_base V R t) (t_size V R t) (t_link V R t)
            [Seg V R stack_bytes (updf f (off + i) w)]).
  Proof.
    intros M L. unfold write. rewrite M. simpl. unfold in_seg. simpl.
    assert (X : (off + i + 1) * word_bytes <=? stack_bytes = true).
    { apply N.leb_le. unfold segment_words, stack_bytes, word_bytes in *. change (65520 / 8) with 8190 in L. lia. }
    rewrite X. reflexivity.
  Qed.
  Lemma read_ok t f off i :
    t_mem V R t = [Seg V R stack_bytes f] -> off + i < segment_words -> read V R t (0%nat, off) i = Some (f (off + i)).
  Proof.
    intros M L. unfold read. rewrite M. simpl. unfold in_seg. simpl.
    assert (X : (off + i + 1) * word_bytes <=? stack_bytes = true).
    { apply N.leb_le. unfold segment_words, stack_bytes, word_bytes in *. change (65520 / 8) with 8190 in L. lia. }
    rewrite X. reflexivity.
  Qed.
  Lemma no_overflow t off w : t_esp V R t = limit addr 0 stack_bytes -> t_sfp V R t = (0%nat, off) -> off + w <= segment_words ->
    overflows V R addr t w = false.
  Proof.
    intros E S L. unfold overflows. rewrite E, S. unfold limit, ptr_addr. simpl. apply N.leb_gt.
    unfold segment_words, stack_bytes, word_bytes, slop_bytes in *. change (65520 / 8) with 8190 in L. lia.
  Qed.

  Lemma push_ok ra args q t v : rel (AF ra args :: q) t -> words (AF ra args :: q) + 1 <= segment_words ->
    exists t', push V R t v = Some t' /\ rel (AF ra (args ++ [v]) :: q) t'.
  Proof.
    intros [B L E [f [off [M [S F]]]]] W. assert (X := frames_words _ _ _ _ _ F). unfold push. rewrite S.
    rewrite (write_ok t f off _ _ M) by lia. eexists. split; [reflexivity|]. constructor; auto. simpl.
    exists (updf f (off + (1 + t_ac V R t)) (WVal V R v)), off. split; auto. split; auto.
    assert (LA : t_ac V R t = lenN args) by (destruct F as [_ [LA _]]; exact LA).
    replace (t_ac V R t + 1) with (lenN (args ++ [v])) by (rewrite app_length; simpl; lia).
    eapply frames_top; [exact F| |].
    - intros i Li. unfold updf. destruct (N.eqb_spec i (off + (1 + t_ac V R t))); auto. lia.
    - intros i w N. unfold updf. destruct (Nat.lt_ge_cases i (length args)) as [Lt|Ge].
      + rewrite nth_error_app1 in N by auto. destruct (N.eqb_spec (off + 1 + N.of_nat i) (off + (1 + t_ac V R t))); [lia|].
        destruct F as [_ [_ [A _]]]. apply A. exact N.
      + rewrite nth_error_app2 in N by auto. destruct (i - length args)%nat as [|[|k]] eqn:D; simpl in N; try discriminate.
        injection N as ->. destruct (N.eqb_spec (off + 1 + N.of_nat i) (off + (1 + t_ac V R t))); [auto|lia].
  Qed.
  Lemma push_list_ok vs : forall ra args q t, rel (AF ra args :: q) t -> words (AF ra (args ++ vs) :: q) <= segment_words ->
    exists t', push_list V R t vs = Some t' /\ rel (AF ra (args ++ vs) :: q) t'.
  Proof.
    induction vs as [|v vs IH]; simpl; intros ra args q t H W.
    - exists t. rewrite app_nil_r. auto.
    - rewrite app_length in W. simpl in W. destruct (push_ok ra args q t v H) as [t1 [P H1]]; [simpl; lia|].
      rewrite P. destruct (IH ra (args ++ [v]) q t1 H1) as [t2 [P2 H2]]; [simpl; rewrite !app_length; simpl; lia|].
      exists t2. rewrite <- app_assoc in H2. auto.
  Qed.

  (** The loop of eval.c 214-215. *)
  Lemma shift_ok n : forall i t f off,
    t_mem V R t = [Seg V R stack_bytes f] -> t_sfp V R t = (0%nat, off) -> off + 2 + i + N.of_nat n <= segment_words ->
    exists g, shift V R n i t = Some (Tc V R (t_ac V R t) (t_sfp V R t) (t_esp V R t) (t_cc V R t) (t_base V R t) (t_size V R t) (t_link V R t)
                               [Seg V R stack_bytes g]) /\
      forall j, g j = if (off + 1 + i <=? j) && (j <? off + 1 + i + N.of_nat n) then f (j + 1) else f j.
  Proof.
    induction n as [|n IH]; intros i t f off M S L.
    - exists f. split. { simpl. destruct t; simpl in *; congruence. }
      intros j. destruct (N.leb_spec (off + 1 + i) j); destruct (N.ltb_spec j (off + 1 + i + N.of_nat 0)); simpl; auto. lia.
    - cbn [shift]. rewrite S. rewrite (read_ok t f off _ M) by lia. rewrite (write_ok t f off _ _ M) by lia.
      destruct (IH (i + 1) (Tc V R (t_ac V R t) (t_sfp V R t) (t_esp V R t) (t_cc V R t) (t_base V R t) (t_size V R t) (t_link V R t)
            [Seg V R stack_bytes (updf f (off + (1 + i)) (f (off + (1 + (i + 1)))))]) _ off eq_refl S) as [g [E G]]; [lia|].
      rewrite E. exists g. split; [simpl; rewrite S; reflexivity|]. intros j. rewrite G. unfold updf.
      destruct (N.leb_spec (off + 1 + i) j); destruct (N.ltb_spec j (off + 1 + i + N.of_nat (Datatypes.S n)));
      destruct (N.leb_spec (off + 1 + (i + 1)) j); destruct (N.ltb_spec j (off + 1 + (i + 1) + N.of_nat n)); simpl;
      repeat match goal with |- context[?a =? ?b] => destruct (N.eqb_spec a b) end; try lia; auto; f_equal; lia.
  Qed.

  Lemma removelast_nth {A} (l : list A) i x : nth_error (removelast l) i = Some x -> nth_error l i = Some x.
  Proof.
    revert i. induction l as [|y [|z l] IH]; intros [|i] H; simpl in *; try discriminate; auto.
  Qed.
  Lemma removelast_len {A} (l : list A) : length (removelast l) = pred (length l).
  Proof. induction l as [|y [|z l] IH]; auto. change (S (length (removelast (z :: l))) = S (length l)). rewrite IH. auto. Qed.

  Lemma spread_ok ra x b mid q t vs :
    rel (AF ra (x :: b :: mid) :: q) t -> words (AF ra (x :: b :: mid) :: q) <= segment_words ->
    words (AF ra (removelast (b :: mid) ++ vs) :: q) <= segment_words ->
    exists t', spread V R addr t vs = Some t' /\ rel (AF ra (removelast (b :: mid) ++ vs) :: q) t'.
  Proof.
    intros [B L E [f [off [M [S F]]]]] W0 W. assert (X := frames_words _ _ _ _ _ F). unfold spread.
    assert (LA : t_ac V R t = lenN (x :: b :: mid)) by (destruct F as [_ [LA _]]; exact LA). simpl List.length in LA.
    destruct (N.ltb_spec (t_ac V R t) 2) as [K|_]; [lia|].
    destruct (shift_ok (N.to_nat (t_ac V R t - 2)) 0 (set_ac V R t (t_ac V R t - 2)) f off M S) as [g [EQ G]]; [lia|].
    rewrite EQ. simpl. rewrite S.
    rewrite (no_overflow _ off).
    2:{ exact E. } 2:{ reflexivity. }
    2:{ change (words (AF ra (removelast (b :: mid) ++ vs) :: q)) with (1 + lenN (removelast (b :: mid) ++ vs) + words q) in W.
        change (words (AF ra (x :: b :: mid) :: q)) with (1 + lenN (x :: b :: mid) + words q) in X.
        rewrite app_length, removelast_len in W. simpl List.length in *. lia. }
    apply (push_list_ok vs ra (removelast (b :: mid)) q); auto.
    constructor; auto. exists g, off. split; auto. split; auto. simpl t_ac. simpl t_cc.
    replace (t_ac V R t - 2) with (lenN (removelast (b :: mid))) by (rewrite removelast_len; simpl List.length; lia).
    eapply frames_top; [exact F| |].
    - intros i Li. rewrite G. destruct (N.leb_spec (off + 1 + 0) i); [lia|]. reflexivity.
    - intros i w N. assert (Li : (i < length (removelast (b :: mid)))%nat) by (apply nth_error_Some; congruence).
      rewrite removelast_len in Li. simpl List.length in Li.
      rewrite G. destruct (N.leb_spec (off + 1 + 0) (off + 1 + N.of_nat i)); [|lia].
      destruct (N.ltb_spec (off + 1 + N.of_nat i) (off + 1 + 0 + N.of_nat (N.to_nat (t_ac V R t - 2)))); [|lia]. simpl.
      apply removelast_nth in N. destruct F as [_ [_ [A _]]]. specialize (A (Datatypes.S i) w N).
      rewrite <- A. f_equal. lia.
  Qed.

  Lemma step_ok a t o a' x :
    rel a t -> words a <= segment_words -> match o with Check _ _ k => words a + k <= segment_words | _ => True end ->
    astep a o = Some (a', x) -> words a' <= segment_words ->
    exists t', step V R addr t o = Some (t', x) /\ rel a' t'.
  Proof.
    intros H W0 K A W. destruct a as [|[ra args] q]; [discriminate|]. destruct o; simpl in A.
    - injection A as <- <-. exists t. split; auto. simpl. f_equal. f_equal. unfold check.
      destruct H as [B L E [f [off [M [S F]]]]]. assert (X := frames_words _ _ _ _ _ F).
      rewrite (no_overflow t off); auto. lia.
    - injection A as <- <-. destruct (push_ok ra args q t v H) as [t1 [P H1]].
      { simpl in W |- *. rewrite app_length in W. simpl in W. lia. }
      exists t1. simpl. rewrite P. auto.
    - injection A as <- <-. destruct (push_list_ok vs ra args q t H W) as [t1 [P H1]]. exists t1. simpl. rewrite P. auto.
    - destruct (rev args) as [|v vs] eqn:RV; [discriminate|]. injection A as <- <-.
      assert (args = rev vs ++ [v]) by (rewrite <- (rev_involutive args), RV; reflexivity). subst args. clear RV.
      destruct H as [B L E [f [off [M [S F]]]]]. assert (X := frames_words _ _ _ _ _ F).
      assert (LA : t_ac V R t = lenN (rev vs ++ [v])) by (destruct F as [_ [LA _]]; exact LA). rewrite app_length in LA. simpl in LA.
      simpl. unfold pop. destruct (N.eqb_spec (t_ac V R t) 0) as [Z|_]; [lia|]. rewrite S, (read_ok t f off _ M) by lia.
      assert (G : f (off + (1 + (t_ac V R t - 1))) = WVal V R v).
      { destruct F as [_ [_ [A _]]]. rewrite <- (A (length (rev vs)) v); [f_equal; lia|].
        simpl. rewrite nth_error_app2 by auto. rewrite Nat.sub_diag. reflexivity. }
      rewrite G. eexists. split; [reflexivity|]. constructor; auto. exists f, off. split; auto. split; auto. simpl t_ac. simpl t_cc.
      replace (t_ac V R t - 1) with (lenN (rev vs)) by lia. eapply frames_top; [exact F|auto|].
      intros i w N. destruct F as [_ [_ [A _]]]. apply A. simpl. rewrite nth_error_app1; auto. apply nth_error_Some. congruence.
    - injection A as <- <-. destruct H as [B L E [f [off [M [S F]]]]]. assert (X := frames_words _ _ _ _ _ F).
      simpl in W. simpl words in X. rewrite X in W. simpl. unfold call. rewrite S. simpl.
      erewrite (write_ok _ f (off + (1 + t_ac V R t)) 0); [|exact M|lia].
      eexists. split; [reflexivity|]. constructor; auto. simpl.
      exists (updf f (off + (1 + t_ac V R t) + 0) (WRet V R (Some r))), (off + (1 + t_ac V R t)). split; auto. split; auto.
      split; [unfold updf; rewrite (proj2 (N.eqb_eq _ _)) by lia; auto|]. split; auto. split; [intros [|i] v N; discriminate|].
      exists off, (t_ac V R t), (t_cc V R t). split; auto. split; [lia|].
      assert (FL := frames_low _ (updf f (off + (1 + t_ac V R t) + 0) (WRet V R (Some r))) _ _ _ _ F). simpl in FL. apply FL.
      intros i Li. unfold updf. destruct (N.eqb_spec i (off + (1 + t_ac V R t) + 0)); [lia|auto].
    - destruct H as [B L E [f [off [M [S F]]]]]. assert (X := frames_words _ _ _ _ _ F).
      destruct q as [|y q'].
      + injection A as <- <-. exists t. simpl. destruct (F) as [F0 [LA [AA [-> [CC RN]]]]]. unfold ret. rewrite S, B. unfold ptr_addr. simpl.
        destruct (N.leb_spec (addr 0%nat + 0) (addr 0%nat)); [|lia]. rewrite L. split; auto. constructor; auto. exists f, 0. auto.
      + injection A as <- <-. destruct F as [F0 [LA [AA [off' [ac' [cc' [CC [-> F']]]]]]]].
        simpl. unfold ret. rewrite S, B. unfold ptr_addr. simpl fst. simpl snd.
        destruct (N.leb_spec (addr 0%nat + (off' + 1 + ac')) (addr 0%nat)); [lia|]. rewrite (read_ok t f _ 0 M) by lia.
        rewrite CC. rewrite N.add_0_r, F0. eexists. split; [reflexivity|]. constructor; auto. exists f, off'. simpl. auto.
    - injection A as <- <-. destruct H as [B L E [f [off [M [S F]]]]]. eexists. split; [reflexivity|]. constructor; auto.
      exists f, off. split; auto. split; auto. simpl t_ac. simpl t_cc. change 0 with (lenN (@nil V)). eapply frames_top; [exact F|auto|].
      intros [|i] w N; discriminate.
    - destruct args as [|g [|b mid]]; try discriminate. injection A as <- <-.
      destruct (spread_ok ra g b mid q t elems H W0 W) as [t1 [P H1]]. exists t1. unfold step. rewrite P. auto.
  Qed.

  Lemma run_ok os : forall a t, rel a t -> words a <= segment_words -> within segment_words a os ->
    exists a' x t', arun a os = Some (a', x) /\ run V R addr t os = Some (t', x) /\ rel a' t'.
  Proof.
    induction os as [|o os IH]; simpl; intros a t H W X.
    - exists a, [], t. auto.
    - destruct X as [X1 X2]. destruct (astep a o) as [[a1 x]|] eqn:A; [|contradiction]. destruct X2 as [W1 X2].
      destruct (step_ok a t o a1 x H W X1 A W1) as [t1 [S1 H1]]. rewrite S1.
      destruct (IH a1 t1 H1 W1 X2) as [a2 [y [t2 [A2 [R2 H2]]]]]. rewrite A2, R2. eauto 10.
  Qed.
  Lemma rel_init : rel abegin (init V R addr).
  Proof.
    constructor; auto. eexists. exists 0. split; [reflexivity|]. split; [reflexivity|]. simpl. split; auto. split; auto. split; auto.
    intros [|i] v H; discriminate.
  Qed.
End Refine.

(** Every sequence of stack operations whose frames fit in the first segment
    behaves like the specification: nothing is written outside of the segment,
    and arguments and return addresses come back unchanged in last-in first-out
    order.  Missing: sequences that need more than one segment, for which the
    claim is refuted below. *)
Theorem C38_frames_preserved_partial :
  forall V R addr (os : list (op V R)),
    within segment_words abegin os ->
    exists a x t, arun abegin os = Some (a, x) /\ run V R addr (init V R addr) os = Some (t, x).
Proof.
  intros V R addr os W. destruct (run_ok V R addr os abegin (init V R addr) (rel_init V R addr)) as [a [x [t [A [B _]]]]]; auto.
  - unfold segment_words, stack_bytes, word_bytes. simpl. discriminate.
  - eauto.
Qed.
Example C38_small_case :
  within (V := nat) (R := nat) segment_words abegin
    [Check _ _ 2; Push _ _ 1%nat; Call _ _ 7%nat; Check _ _ 1; Push _ _ 2%nat; Pop _ _; Ret _ _; Push _ _ 3%nat; Pop _ _; Pop _ _; Ret _ _] /\
  option_map snd (arun (V := nat) (R := nat) abegin
    [Check _ _ 2; Push _ _ 1%nat; Call _ _ 7%nat; Check _ _ 1; Push _ _ 2%nat; Pop _ _; Ret _ _; Push _ _ 3%nat; Pop _ _; Pop _ _; Ret _ _])
  = Some [Popped _ _ (WVal _ _ 2%nat); Resumed _ _ (WRet _ _ (Some 7%nat)); Popped _ _ (WVal _ _ 3%nat); Popped _ _ (WVal _ _ 1%nat); Exited _ _].
Proof.
  split; [|reflexivity].
  assert (K : forall n, n <= 100 -> n <= segment_words) by (intros; transitivity 100; [auto|unfold segment_words, stack_bytes, word_bytes; vm_compute; discriminate]).
  repeat (split; try (apply K; vm_compute; discriminate)); exact Logic.I.
Qed.

(** ** Where the claim fails *)
Section Overflow.
  Variables V R : Type.
  Variable addr : nat -> N.

  Lemma push_fails ra args q t v : rel V R addr (AF ra args :: q) t -> segment_words <= words (AF ra args :: q) -> push V R t v = None.
  Proof.
    intros [B L E [f [off [M [S F]]]]] W. rewrite (frames_words _ _ _ _ _ _ _ F) in W. unfold push, write. rewrite S, M. simpl. unfold in_seg. simpl.
    assert (X : (off + (1 + t_ac V R t) + 1) * word_bytes <=? stack_bytes = false).
    { apply N.leb_gt. unfold segment_words, stack_bytes, word_bytes in *. change (65520 / 8) with 8190 in W. lia. }
    rewrite X. reflexivity.
  Qed.
  Lemma call_fails a t r : rel V R addr a t -> segment_words <= words a -> call V R t r = None.
  Proof.
    intros [B L E [f [off [M [S F]]]]] W. rewrite (frames_words _ _ _ _ _ _ _ F) in W. unfold call, write. rewrite S. simpl. rewrite M. simpl. unfold in_seg. simpl.
    assert (X : (off + (1 + t_ac V R t) + 0 + 1) * word_bytes <=? stack_bytes = false).
    { apply N.leb_gt. unfold segment_words, stack_bytes, word_bytes in *. change (65520 / 8) with 8190 in W. lia. }
    rewrite X. reflexivity.
  Qed.
  Lemma push_list_fails vs : forall ra args q t, rel V R addr (AF ra args :: q) t -> words (AF ra args :: q) <= segment_words ->
    segment_words < words (AF ra (args ++ vs) :: q) -> push_list V R t vs = None.
  Proof.
    induction vs as [|v vs IH]; intros ra args q t H W G.
    - rewrite app_nil_r in G. lia.
    - simpl. destruct (N.le_gt_cases segment_words (words (AF ra args :: q))) as [K|K].
      + rewrite (push_fails ra args q t v H K). reflexivity.
      + destruct (push_ok V R addr ra args q t v H) as [t1 [P H1]]; [lia|]. rewrite P. apply (IH ra (args ++ [v]) q t1 H1).
        * simpl in K |- *. rewrite app_length. simpl. lia.
        * rewrite <- app_assoc. exact G.
  Qed.
  Lemma run_app os1 : forall t os2, run V R addr t (os1 ++ os2) =
    match run V R addr t os1 with
    | Some (t1, x) => match run V R addr t1 os2 with Some (t2, y) => Some (t2, x ++ y) | None => None end
    | None => None
    end.
  Proof.
    induction os1 as [|o os IH]; simpl; intros t os2.
    - destruct (run V R addr t os2) as [[t2 y]|]; auto.
    - destruct (step V R addr t o) as [[t1 x]|]; auto. rewrite IH. destruct (run V R addr t1 os) as [[t2 y]|]; auto.
      destruct (run V R addr t2 os2) as [[t3 z]|]; auto. rewrite app_assoc. reflexivity.
  Qed.
  Lemma arun_app os1 : forall (a : list (aframe V R)) os2, arun a (os1 ++ os2) =
    match arun a os1 with
    | Some (a1, x) => match arun a1 os2 with Some (a2, y) => Some (a2, x ++ y) | None => None end
    | None => None
    end.
  Proof.
    induction os1 as [|o os IH]; simpl; intros a os2.
    - destruct (arun a os2) as [[t2 y]|]; auto.
    - destruct (astep a o) as [[t1 x]|]; auto. rewrite IH. destruct (arun t1 os) as [[t2 y]|]; auto.
      destruct (arun t2 os2) as [[t3 z]|]; auto. rewrite app_assoc. reflexivity.
  Qed.

  (** A recursion of depth [n]: each level asks for one argument, pushes it and
      makes a call that is not in tail position. *)
  Fixpoint deep (v : V) (r : R) (n : nat) : list (op V R) :=
    match n with O => [] | S k => [Check _ _ 1; Push _ _ v; Call _ _ r] ++ deep v r k end.
  Lemma deep_arun v r n : forall (a : list (aframe V R)), a <> [] -> exists a', arun a (deep v r n) = Some (a', []) /\ words a' = words a + 2 * N.of_nat n /\ a' <> [].
  Proof.
    induction n as [|n IH]; intros a NE.
    - exists a. simpl. split; auto. split; [lia|auto].
    - destruct a as [|[ra args] q]; [congruence|]. simpl.
      destruct (IH (AF (Some r) [] :: AF ra (args ++ [v]) :: q)) as [a' [A [W N']]]; [discriminate|]. rewrite A. exists a'. split; auto. split; auto.
      rewrite W. simpl. rewrite app_length. simpl. lia.
  Qed.
  Lemma deep_within v r n : forall a, a <> [] -> words a + 2 * N.of_nat n <= segment_words -> within segment_words a (deep v r n).
  Proof.
    induction n as [|n IH]; intros a NE W; [exact Logic.I|]. destruct a as [|[ra args] q]; [congruence|]. simpl in W.
    simpl. split; [lia|]. split; [lia|]. split; auto. rewrite app_length. simpl. split; [lia|]. split; auto. split; [lia|].
    apply IH; [discriminate|]. simpl. rewrite app_length. simpl. lia.
  Qed.
  Lemma deep_app v r n m : deep v r (n + m) = deep v r n ++ deep v r m.
  Proof. induction n as [|n IH]; simpl; auto. rewrite IH. reflexivity. Qed.
  Lemma deep_fails v r n : 4095 <= N.of_nat n -> run V R addr (init V R addr) (deep v r n) = None.
  Proof.
    intros L. assert (SW : segment_words = 8190) by reflexivity.
    assert (EN : exists m, n = (N.to_nat 4094 + S m)%nat).
    { exists (N.to_nat (N.of_nat n - 4095)). apply Nnat.Nat2N.inj. rewrite Nnat.Nat2N.inj_add, Nnat.Nat2N.inj_succ, !Nnat.N2Nat.id. lia. }
    destruct EN as [m ->]. rewrite deep_app, run_app.
    destruct (run_ok V R addr (deep v r (N.to_nat 4094)) abegin (init V R addr) (rel_init V R addr)) as [a [x [t [A [B H]]]]].
    { rewrite SW. unfold abegin. simpl. lia. }
    { apply deep_within; [discriminate|]. rewrite SW. unfold abegin. cbn [words a_args List.length]. rewrite Nnat.N2Nat.id. vm_compute. discriminate. }
    rewrite B. destruct (deep_arun v r (N.to_nat 4094) abegin) as [a' [A' [W NE]]]; [discriminate|].
    rewrite A in A'. injection A' as <- ->. destruct a as [|[ra args] q]; [congruence|].
    assert (W' : words (AF ra args :: q) = 8189) by (rewrite W, Nnat.N2Nat.id; reflexivity). clear W.
    cbn [deep app run].
    destruct (step_ok V R addr _ t (Check _ _ 1) (AF ra args :: q) [] H) as [t1 [S1 H1]]; [rewrite SW; lia|rewrite SW; lia|reflexivity|rewrite SW; lia|].
    rewrite S1. destruct (push_ok V R addr ra args q t1 v H1) as [t2 [P2 H2]]; [rewrite SW; lia|].
    unfold step at 1. rewrite P2. unfold step at 1. rewrite (call_fails _ _ r H2); [reflexivity|].
    rewrite SW. simpl in W' |- *. rewrite app_length. simpl. lia.
  Qed.
End Overflow.

(** No write falls outside the current segment: false.  Every recursion through
    4095 calls that are not in tail position, with one argument each, writes
    beyond the end of the first segment, although every level asks for the stack
    space it uses: the limit pointer is computed in words from a size in bytes. *)
Theorem C38_deep_recursion_refuted :
  forall V R addr (v : V) (r : R) n, 4095 <= N.of_nat n ->
    (exists a, arun abegin (deep V R v r n) = Some (a, [])) /\
    run V R addr (init V R addr) (deep V R v r n) = None.
Proof.
  intros V R addr v r n L. split; [|apply deep_fails; auto].
  destruct (deep_arun V R v r n abegin) as [a [A _]]; [discriminate|]. eauto.
Qed.

(** Returning after the stack has moved to a new segment: the return address of
    the frame that grew is lost, and the machine continues at the address of the
    outermost frame (NULL).  This holds in every state of the first segment in
    which at least one call is active. *)
Theorem C38_return_address_lost_refuted :
  forall V R addr (os : list (op V R)) n f g a x,
    within segment_words abegin os -> arun abegin os = Some (f :: g :: a, x) ->
    stack_bytes - slop_bytes <= words (f :: g :: a) + n ->
    arun abegin (os ++ [Check _ _ n; Ret _ _]) = Some (g :: a, x ++ [Resumed _ _ (WRet _ _ (a_ret f))]) /\
    exists t, run V R addr (init V R addr) (os ++ [Check _ _ n; Ret _ _]) = Some (t, x ++ [Resumed _ _ (WRet _ _ None)]).
Proof.
  intros V R addr os n f g a x W A L. split; [rewrite arun_app, A; destruct f; reflexivity|].
  rewrite run_app. destruct (run_ok V R addr os abegin (init V R addr) (rel_init V R addr)) as [a' [x' [t [A' [B H]]]]]; auto.
  { vm_compute. discriminate. }
  rewrite A in A'. injection A' as <- <-. rewrite B. clear A B W.
  destruct H as [HB HL HE [fn [off [M [S F]]]]]. assert (FW := frames_words _ _ _ _ _ _ _ F). rewrite FW in L.
  cbn [run step]. unfold check, overflows. rewrite HE, S. unfold limit, ptr_addr. simpl fst. simpl snd.
  destruct (N.leb_spec (addr 0%nat + (stack_bytes - slop_bytes)) (addr 0%nat + off + (1 + (t_ac V R t + n)))) as [_|K]; [|lia].
  unfold ret, grow. cbn [t_sfp t_base t_link]. unfold ptr_addr. rewrite M. cbn [List.length fst snd app ss_base ss_len ss_ret]. rewrite N.add_0_r, N.leb_refl.
  unfold read. rewrite HB. cbn [t_mem t_sfp fst snd nth_error]. unfold in_seg. cbn [seg_bytes seg_word].
  change ((0 + 0 + 1) * word_bytes <=? stack_bytes) with true. cbn [app].
  assert (Z : fn (0 + 0) = WRet V R None).
  { change (0 + 0) with 0. eapply frames_bottom. exact F. }
  rewrite Z. destruct F as [_ [_ [_ [off' [ac' [cc' [CC _]]]]]]]. rewrite CC. eexists. reflexivity.
Qed.
(** One call is enough, for instance of a procedure with 70000 arguments. *)
Example C38_lost_case :
  within (V := nat) (R := nat) segment_words abegin [Call _ _ 7%nat] /\
  arun (V := nat) (R := nat) abegin [Call _ _ 7%nat] = Some ([AF (Some 7%nat) []; AF None []], []) /\
  stack_bytes - slop_bytes <= words (V := nat) (R := nat) [AF (Some 7%nat) []; AF None []] + 70000.
Proof. split; [|split; [reflexivity|vm_compute; discriminate]]. simpl. split; auto. split; auto. vm_compute. discriminate. Qed.

(** apply on a long list.  A list of 8190 to 64494 elements does not fit in the
    first segment, but the check for growth does not notice it. *)
Theorem C36_long_list_refuted :
  forall V R addr (g l : V) elems,
    segment_words <= lenN elems -> lenN elems + 1 < stack_bytes - slop_bytes ->
    arun (R := R) abegin [Check _ _ 2; Push _ _ g; Push _ _ l; Spread _ _ elems] = Some ([AF None elems], []) /\
    run V R addr (init V R addr) [Check _ _ 2; Push _ _ g; Push _ _ l; Spread _ _ elems] = None.
Proof.
  intros V R addr g l elems L1 L2. split; [reflexivity|].
  destruct (run_ok V R addr [Check _ _ 2; Push _ _ g; Push _ _ l] abegin (init V R addr) (rel_init V R addr)) as [a [x [t [A [B H]]]]].
  { vm_compute. discriminate. }
  { assert (K : forall n, n <= 100 -> n <= segment_words) by (intros; transitivity 100; [auto|vm_compute; discriminate]).
    repeat (split; try (apply K; vm_compute; discriminate)); exact Logic.I. }
  change [Check V R 2; Push V R g; Push V R l; Spread V R elems] with ([Check V R 2; Push V R g; Push V R l] ++ [Spread V R elems]).
  rewrite run_app, B. injection A as <- <-. cbn [run step].
  assert (E : spread V R addr t elems = None); [|rewrite E; reflexivity].
  destruct H as [HB HL HE [f [off [M [S F]]]]]. assert (AC : t_ac V R t = 2) by (destruct F as [_ [AC _]]; exact AC).
  unfold spread. rewrite AC. change (2 <? 2) with false. change (N.to_nat (2 - 2)) with 0%nat. cbn [shift t_ac set_ac].
  destruct (F) as [_ [_ [_ [-> _]]]].
  assert (O : overflows V R addr (set_ac V R t (2 - 2)) (1 + (2 - 2) + lenN elems) = false).
  { unfold overflows. simpl. rewrite HE, S. unfold limit, ptr_addr. simpl. apply N.leb_gt. lia. }
  rewrite O. apply (push_list_fails V R addr elems None [] []).
  - constructor; auto. exists f, 0. split; auto. split; auto. change (t_ac V R (set_ac V R t (2 - 2))) with (lenN (@nil V)).
    eapply frames_top; [exact F|auto|]. intros [|i] w N; discriminate.
  - vm_compute. discriminate.
  - simpl. lia.
Qed.
Example C36_long_list_case : segment_words <= lenN (repeat 0%nat (N.to_nat 9000)) /\ lenN (repeat 0%nat (N.to_nat 9000)) + 1 < stack_bytes - slop_bytes.
Proof. rewrite repeat_length, Nnat.N2Nat.id. split; vm_compute; [discriminate|reflexivity]. Qed.

(** call-with-values on many values: the values are pushed without any check. *)
Theorem C37_many_values_refuted :
  forall V R addr (vs : list V), segment_words <= lenN vs ->
    arun (R := R) abegin [PushAll _ _ vs] = Some ([AF None vs], []) /\
    run V R addr (init V R addr) [PushAll _ _ vs] = None.
Proof.
  intros V R addr vs L. split; [reflexivity|]. cbn [run step].
  rewrite (push_list_fails V R addr vs None [] [] (init V R addr) (rel_init V R addr)); auto.
  - vm_compute. discriminate.
  - simpl. lia.
Qed.
Example C37_many_values_case : segment_words <= lenN (repeat 0%nat (N.to_nat 9000)).
Proof. rewrite repeat_length, Nnat.N2Nat.id. vm_compute. discriminate. Qed.
(** A stack that grows makes room for what was asked: after a check for [vs]
    arguments that moved the stack, all of them can be pushed, whatever their
    number, and every word of the frame is inside the new segment. *)
Theorem C38_grown_segment_holds_arguments :
  forall V R addr (t : tc V R) (vs : list V),
    overflows V R addr t (1 + (t_ac V R t + lenN vs)) = true ->
    exists t', push_list V R (check V R addr t (lenN vs)) vs = Some t' /\
      t_sfp V R t' = (List.length (t_mem V R t), 0) /\ t_ac V R t' = t_ac V R t + lenN vs /\
      forall i, i <= t_ac V R t + lenN vs -> read V R t' (t_sfp V R t') i <> None.
Proof.
  intros V R addr t vs O. unfold check. rewrite O. set (n := t_ac V R t + lenN vs).
  assert (G : forall vs u seg, t_sfp V R u = (List.length (t_mem V R t), 0) ->
     nth_error (t_mem V R u) (List.length (t_mem V R t)) = Some seg -> (n + 1) * word_bytes <= seg_bytes V R seg ->
     t_ac V R u + lenN vs = n ->
     exists t', push_list V R u vs = Some t' /\ t_sfp V R t' = (List.length (t_mem V R t), 0) /\ t_ac V R t' = n /\
       exists seg', nth_error (t_mem V R t') (List.length (t_mem V R t)) = Some seg' /\ (n + 1) * word_bytes <= seg_bytes V R seg').
  { generalize n. clear n O vs. intros n vs. induction vs as [|v q IH]; intros u seg S N B L.
    - exists u. simpl in L. split; [auto|]. split; [auto|]. split; [lia|]. eauto.
    - assert (L1 : lenN (v :: q) = 1 + lenN q) by (cbn [List.length]; rewrite Nnat.Nat2N.inj_succ; lia). rewrite L1 in L.
      cbn [push_list]. unfold push, write. rewrite S. simpl fst. simpl snd. rewrite N. unfold in_seg.
      replace ((0 + (1 + t_ac V R u) + 1) * word_bytes <=? seg_bytes V R seg) with true.
      2: { symmetry. apply N.leb_le. unfold word_bytes in *. lia. }
      refine (IH _ (Seg V R (seg_bytes V R seg) _) _ _ _ _); cbn [set_ac t_sfp t_mem t_ac seg_bytes]; auto; [|lia].
      assert (D : (List.length (t_mem V R t) < List.length (t_mem V R u))%nat) by (apply nth_error_Some; congruence).
      revert D. generalize (List.length (t_mem V R t)). generalize (t_mem V R u). clear. intros l.
      induction l as [|x l IHl]; intros [|k] D; simpl in *; try lia; auto. apply IHl. lia. }
  destruct (G vs (grow V R addr t (1 + n)) (Seg V R (if stack_bytes <? (1 + n) * word_bytes + slop_bytes then (1 + n) * word_bytes + slop_bytes else stack_bytes) (fun _ => WNone V R)))
    as [t' [P [S [A [seg [N B]]]]]].
  - reflexivity.
  - unfold grow. cbn [t_mem]. rewrite nth_error_app2, Nat.sub_diag by lia. reflexivity.
  - cbn [seg_bytes]. destruct (N.ltb_spec stack_bytes ((1 + n) * word_bytes + slop_bytes)); unfold word_bytes, slop_bytes in *; lia.
  - reflexivity.
  - exists t'. repeat (split; auto). intros i I. unfold read. rewrite S. simpl fst. simpl snd. rewrite N. unfold in_seg.
    replace ((0 + i + 1) * word_bytes <=? seg_bytes V R seg) with true; [discriminate|].
    symmetry. apply N.leb_le. unfold word_bytes in *. lia.
Qed.
Example C38_grown_case : overflows nat nat (fun _ => 0) (init nat nat (fun _ => 0)) (1 + (t_ac nat nat (init nat nat (fun _ => 0)) + 70000)) = true.
Proof. vm_compute. reflexivity. Qed.

(** apply with a list that does not fit: the stack moves to a new segment and the
    callee gets the arguments before the list and the elements of the list. *)
Section Moved.
  Variables V R : Type.
  Variable addr : nat -> N.
  Notation read := (read V R).
  Notation write := (write V R).
  Definition same_regs (t t' : tc V R) : Prop :=
    t_ac V R t' = t_ac V R t /\ t_sfp V R t' = t_sfp V R t /\ t_esp V R t' = t_esp V R t /\ List.length (t_mem V R t') = List.length (t_mem V R t).
  Lemma set_seg_nth l : forall n m s, (n < List.length l)%nat -> nth_error (set_seg V R l n s) m = if (m =? n)%nat then Some s else nth_error l m.
  Proof.
    induction l as [|x l IH]; intros [|n] [|m] s L; simpl in *; try lia; auto. rewrite IH by lia. reflexivity.
  Qed.
  Lemma set_seg_len l : forall n s, List.length (set_seg V R l n s) = List.length l.
  Proof. induction l as [|x l IH]; intros [|n] s; simpl; auto. Qed.
  Lemma write_read t p i w : read t p i <> None ->
    exists t', write t p i w = Some t' /\ same_regs t t' /\
      forall q j, read t' q j = if (Nat.eqb (fst q) (fst p) && (snd q + j =? snd p + i))%bool then Some w else read t q j.
  Proof.
    unfold Stack.read, Stack.write. destruct (nth_error (t_mem V R t) (fst p)) as [sg|] eqn:E; [|congruence].
    destruct (in_seg V R sg (snd p + i)) eqn:B; [|congruence]. intros _. eexists. split; [reflexivity|].
    split; [repeat split; simpl; apply set_seg_len|]. intros q j. cbn [t_mem].
    assert (L : (fst p < List.length (t_mem V R t))%nat) by (apply nth_error_Some; congruence).
    rewrite set_seg_nth by auto. destruct (Nat.eqb_spec (fst q) (fst p)) as [Q|Q]; simpl; [|reflexivity].
    unfold in_seg in *. cbn [seg_bytes seg_word]. rewrite Q, E. destruct (N.eqb_spec (snd q + j) (snd p + i)) as [J|J]; [|reflexivity].
    rewrite J, B. reflexivity.
  Qed.
  Lemma shift_moves n : forall i t, (forall j, j <= i + N.of_nat n -> read t (t_sfp V R t) (1 + j) <> None) ->
    exists t', shift V R n i t = Some t' /\ same_regs t t' /\
      forall j, read t' (t_sfp V R t) (1 + j) = if (i <=? j) && (j <? i + N.of_nat n) then read t (t_sfp V R t) (2 + j) else read t (t_sfp V R t) (1 + j).
  Proof.
    induction n as [|n IH]; intros i t H; cbn [shift].
    - exists t. split; auto. split; [repeat split|]. intros j. destruct (N.leb_spec i j); simpl; auto. destruct (N.ltb_spec j (i + N.of_nat 0)); auto. lia.
    - assert (H1 := H (i + 1) ltac:(lia)). destruct (read t (t_sfp V R t) (1 + (i + 1))) as [w|] eqn:E; [|congruence].
      destruct (write_read t (t_sfp V R t) (1 + i) w (H i ltac:(lia))) as [t1 [W1 [[A1 [A2 [A3 A4]]] R1]]]. rewrite W1.
      destruct (IH (i + 1) t1) as [t2 [S2 [[B1 [B2 [B3 B4]]] R2]]].
      { intros j L. rewrite A2, R1. destruct (_ && _); [discriminate|]. apply H. lia. }
      exists t2. split; auto. split; [repeat split; congruence|]. intros j. rewrite A2 in R2. rewrite R2.
      rewrite !R1, !Nat.eqb_refl. simpl. rewrite Nat2N.inj_succ.
      destruct (N.leb_spec (i + 1) j) as [L1|L1]; destruct (N.ltb_spec j (i + 1 + N.of_nat n)) as [L2|L2];
        destruct (N.leb_spec i j) as [L3|L3]; destruct (N.ltb_spec j (i + N.succ (N.of_nat n))) as [L4|L4]; try lia; simpl;
        destruct (N.eqb_spec (snd (t_sfp V R t) + (2 + j)) (snd (t_sfp V R t) + (1 + i))); try lia; auto;
        destruct (N.eqb_spec (snd (t_sfp V R t) + (1 + j)) (snd (t_sfp V R t) + (1 + i))); try lia; auto.
      replace (2 + j) with (1 + (i + 1)) by lia. auto.
  Qed.
  Lemma copy_moves n from : forall i t, fst from <> fst (t_sfp V R t) ->
    (forall j, j < N.of_nat n -> read t from (i + j + 1) <> None) -> (forall j, j < N.of_nat n -> read t (t_sfp V R t) (1 + (i + j)) <> None) ->
    exists t', copy_from V R from n i t = Some t' /\ same_regs t t' /\
      (forall j, read t' (t_sfp V R t) (1 + j) = if (i <=? j) && (j <? i + N.of_nat n) then read t from (j + 1) else read t (t_sfp V R t) (1 + j)).
  Proof.
    induction n as [|n IH]; intros i t D H K; cbn [copy_from].
    - exists t. split; auto. split; [repeat split|]. intros j. destruct (N.leb_spec i j); simpl; auto. destruct (N.ltb_spec j (i + N.of_nat 0)); auto. lia.
    - assert (H1 := H 0 ltac:(lia)). rewrite N.add_0_r in H1. destruct (read t from (i + 1)) as [w|] eqn:E; [|congruence].
      destruct (write_read t (t_sfp V R t) (1 + i) w) as [t1 [W1 [[A1 [A2 [A3 A4]]] R1]]]; [replace i with (i + 0) by lia; apply K; lia|]. rewrite W1.
      assert (RF : forall j, read t1 from j = read t from j).
      { intros j. rewrite R1. destruct (Nat.eqb_spec (fst from) (fst (t_sfp V R t))); [contradiction|reflexivity]. }
      destruct (IH (i + 1) t1) as [t2 [S2 [[B1 [B2 [B3 B4]]] R2]]].
      { rewrite A2. auto. }
      { intros j L. rewrite RF. replace (i + 1 + j + 1) with (i + (1 + j) + 1) by lia. apply H. lia. }
      { intros j L. rewrite A2, R1. destruct (_ && _); [discriminate|]. replace (i + 1 + j) with (i + (1 + j)) by lia. apply K. lia. }
      exists t2. split; auto. split; [repeat split; congruence|]. intros j. rewrite A2 in R2. rewrite R2, RF.
      rewrite !R1, !Nat.eqb_refl. simpl. rewrite Nat2N.inj_succ.
      destruct (N.leb_spec (i + 1) j) as [L1|L1]; destruct (N.ltb_spec j (i + 1 + N.of_nat n)) as [L2|L2];
        destruct (N.leb_spec i j) as [L3|L3]; destruct (N.ltb_spec j (i + N.succ (N.of_nat n))) as [L4|L4]; try lia; simpl; auto;
        destruct (N.eqb_spec (snd (t_sfp V R t) + (1 + j)) (snd (t_sfp V R t) + (1 + i))); try lia; auto.
      replace (j + 1) with (i + 1) by lia. auto.
  Qed.
  Lemma push_moves vs : forall t, (forall j, j < lenN vs -> read t (t_sfp V R t) (1 + (t_ac V R t + j)) <> None) ->
    exists t', push_list V R t vs = Some t' /\ t_sfp V R t' = t_sfp V R t /\ t_ac V R t' = t_ac V R t + lenN vs /\
      (forall j, j < t_ac V R t -> read t' (t_sfp V R t) (1 + j) = read t (t_sfp V R t) (1 + j)) /\
      (forall k v, nth_error vs k = Some v -> read t' (t_sfp V R t) (1 + (t_ac V R t + N.of_nat k)) = Some (WVal V R v)).
  Proof.
    induction vs as [|v vs IH]; intros t H; cbn [push_list].
    - exists t. split; auto. split; auto. split; [simpl; lia|]. split; auto. intros [|k] v X; discriminate.
    - assert (L1 : lenN (v :: vs) = 1 + lenN vs) by (cbn [List.length]; rewrite Nnat.Nat2N.inj_succ; lia). rewrite L1 in *.
      unfold push. destruct (write_read t (t_sfp V R t) (1 + t_ac V R t) (WVal V R v)) as [t1 [W1 [[A1 [A2 [A3 A4]]] R1]]].
      { replace (t_ac V R t) with (t_ac V R t + 0) by lia. apply H. lia. }
      rewrite W1. set (t1' := set_ac V R t1 (t_ac V R t + 1)).
      assert (RR : forall q j, read t1' q j = read t1 q j) by reflexivity.
      destruct (IH t1') as [t2 [P2 [B1 [B2 [B3 B4]]]]].
      { intros j L. rewrite RR. cbn [t1' set_ac t_sfp t_ac]. rewrite A2, R1. destruct (_ && _); [discriminate|].
        replace (t_ac V R t + 1 + j) with (t_ac V R t + (1 + j)) by lia. apply H. lia. }
      cbn [t1' set_ac t_sfp t_ac] in B1, B2, B3, B4. rewrite A2 in *.
      exists t2. split; auto. split; auto. split; [lia|]. split.
      + intros j L. rewrite B3 by lia. rewrite RR, R1, Nat.eqb_refl. simpl.
        destruct (N.eqb_spec (snd (t_sfp V R t) + (1 + j)) (snd (t_sfp V R t) + (1 + t_ac V R t))); [lia|reflexivity].
      + intros [|k] u X.
        * simpl in X. injection X as <-. rewrite N.add_0_r. rewrite B3 by lia. rewrite RR, R1, Nat.eqb_refl, N.eqb_refl. reflexivity.
        * simpl in X. apply B4 in X. rewrite <- X. f_equal. lia.
  Qed.
End Moved.
Theorem C36_list_moves_to_new_segment :
  forall V R addr (t : tc V R) elems,
    2 <= t_ac V R t -> (forall i, i <= t_ac V R t -> read V R t (t_sfp V R t) i <> None) ->
    overflows V R addr t (1 + (t_ac V R t - 2) + lenN elems) = true ->
    exists t', spread V R addr t elems = Some t' /\ t_ac V R t' = t_ac V R t - 2 + lenN elems /\
      (forall i, i < t_ac V R t - 2 -> read V R t' (t_sfp V R t') (1 + i) = read V R t (t_sfp V R t) (2 + i)) /\
      (forall k v, nth_error elems k = Some v -> read V R t' (t_sfp V R t') (1 + (t_ac V R t - 2 + N.of_nat k)) = Some (WVal V R v)).
Proof.
  intros V R addr t elems L2 H O. unfold spread. destruct (N.ltb_spec (t_ac V R t) 2); [lia|].
  destruct (shift_moves V R (N.to_nat (t_ac V R t - 2)) 0 (set_ac V R t (t_ac V R t - 2))) as [t1 [S1 [[A1 [A2 [A3 A4]]] R1]]].
  { intros j L. cbn [set_ac t_sfp]. rewrite Nnat.N2Nat.id in L. change (read V R t (t_sfp V R t) (1 + j) <> None). apply H. lia. }
  rewrite S1. cbn [set_ac t_ac t_sfp t_esp t_mem] in A1, A2, A3, A4, R1. rewrite A1.
  assert (O1 : overflows V R addr t1 (1 + (t_ac V R t - 2) + lenN elems) = true).
  { revert O. unfold overflows. rewrite A2, A3. auto. }
  rewrite O1. set (w := 1 + (t_ac V R t - 2) + lenN elems). set (g := grow V R addr t1 w).
  assert (DS : fst (t_sfp V R t) <> List.length (t_mem V R t1)).
  { intros E. specialize (H 0 ltac:(lia)). unfold Stack.read in H. rewrite E, A4 in H.
    rewrite (proj2 (nth_error_None _ _)) in H by lia. congruence. }
  assert (RG : forall j, read V R g (t_sfp V R t) j = read V R t1 (t_sfp V R t) j).
  { intros j. unfold Stack.read, g, grow. cbn [t_mem]. destruct (nth_error (t_mem V R t1) (fst (t_sfp V R t))) as [sg|] eqn:E.
    - rewrite nth_error_app1; [rewrite E; reflexivity|]. apply nth_error_Some. congruence.
    - specialize (H 0 ltac:(lia)). unfold Stack.read in H. destruct (nth_error (t_mem V R t) (fst (t_sfp V R t))) eqn:E2; [|congruence].
      apply nth_error_None in E. assert (fst (t_sfp V R t) < List.length (t_mem V R t))%nat by (apply nth_error_Some; congruence). lia. }
  assert (SG : t_sfp V R g = (List.length (t_mem V R t1), 0)) by reflexivity.
  assert (NG : forall j, j <= t_ac V R t + lenN elems -> read V R g (t_sfp V R g) j <> None).
  { intros j L. unfold Stack.read. rewrite SG. unfold g, grow. cbn [t_mem fst snd].
    rewrite nth_error_app2, Nat.sub_diag by lia. cbn [nth_error]. unfold in_seg. cbn [seg_bytes].
    match goal with |- (if ?b then _ else _) <> None => replace b with true; [discriminate|] end. symmetry. apply N.leb_le. unfold w.
    destruct (N.ltb_spec stack_bytes ((1 + (t_ac V R t - 2) + lenN elems) * word_bytes + slop_bytes)); unfold word_bytes, slop_bytes in *; lia. }
  destruct (copy_moves V R (N.to_nat (t_ac V R t)) (t_sfp V R t) 0 g) as [t2 [S2 [[B1 [B2 [B3 B4]]] R2]]].
  { rewrite SG. exact DS. }
  { intros j L. rewrite RG. replace (0 + j + 1) with (1 + j) by lia. rewrite R1. rewrite Nnat.N2Nat.id in *.
    destruct (_ && _) eqn:E; [apply andb_true_iff in E; destruct E as [_ E]; apply N.ltb_lt in E|]; [change (read V R t (t_sfp V R t) (2 + j) <> None)|change (read V R t (t_sfp V R t) (1 + j) <> None)]; apply H; lia. }
  { intros j L. apply NG. lia. }
  rewrite S2. assert (AG : t_ac V R g = t_ac V R t - 2) by exact A1.
  destruct (push_moves V R elems t2) as [t3 [P3 [C1 [C2 [C3 C4]]]]].
  { intros j L. rewrite B1, B2, R2, AG. destruct (_ && _) eqn:E; [|apply NG; lia].
    apply andb_true_iff in E. destruct E as [_ E]. apply N.ltb_lt in E. rewrite Nnat.N2Nat.id in E.
    rewrite RG. replace (t_ac V R t - 2 + j + 1) with (1 + (t_ac V R t - 2 + j)) by lia. rewrite R1, Nnat.N2Nat.id.
    destruct (N.leb_spec 0 (t_ac V R t - 2 + j)); [|lia]. destruct (N.ltb_spec (t_ac V R t - 2 + j) (0 + (t_ac V R t - 2))); [lia|]. simpl.
    change (read V R t (t_sfp V R t) (1 + (t_ac V R t - 2 + j)) <> None). apply H. lia. }
  exists t3. rewrite B1, AG in *. rewrite B2 in *. split; auto. split; auto. rewrite C1. split; auto.
  intros i L. rewrite C3, R2 by auto. rewrite Nnat.N2Nat.id. destruct (N.leb_spec 0 i); [|lia]. destruct (N.ltb_spec i (0 + t_ac V R t)); [|lia]. simpl.
  rewrite RG. replace (i + 1) with (1 + i) by lia. rewrite R1, Nnat.N2Nat.id.
  destruct (N.leb_spec 0 i); [|lia]. destruct (N.ltb_spec i (0 + (t_ac V R t - 2))); [|lia]. reflexivity.
Qed.
Example C36_moved_case :
  let t := Tc nat nat 3 (0%nat, 0) (limit (fun _ => 0) 0 stack_bytes) [] 0 stack_bytes []
              [Seg nat nat stack_bytes (fun i => if i =? 0 then WRet nat nat None else WVal nat nat (N.to_nat i))] in
  (forall i, i <= 3 -> read nat nat t (t_sfp nat nat t) i <> None) /\
  overflows nat nat (fun _ => 0) t (1 + (t_ac nat nat t - 2) + lenN (repeat 5%nat (N.to_nat 70000))) = true.
Proof.
  split.
  - intros i L. unfold Stack.read. cbn [t_mem t_sfp fst snd nth_error]. unfold in_seg. cbn [seg_bytes].
    replace ((0 + i + 1) * word_bytes <=? stack_bytes) with true; [discriminate|]. symmetry. apply N.leb_le. unfold word_bytes, stack_bytes. lia.
  - rewrite repeat_length, Nnat.N2Nat.id. vm_compute. reflexivity.
Qed.

Print Assumptions C38_frames_preserved_partial.
Print Assumptions C38_deep_recursion_refuted.
Print Assumptions C38_return_address_lost_refuted.
Print Assumptions C36_long_list_refuted.
Print Assumptions C37_many_values_refuted.
Print Assumptions C38_grown_segment_holds_arguments.
Print Assumptions C36_list_moves_to_new_segment.
