(** C49: formatted output. *)
From Coq Require Import ZArith NArith Bool Ascii String List Arith Lia.
From Verif Require Import Base Reader Hashtable HashtableProofs SetsProofs Port PortThm Format.
Import ListNotations.
Local Open Scope list_scope.

(** ** Specification *)
Inductive piece : Type := Text (c : byte) | Display | Write | Newline | Tilde.
(** What a format string means. *)
Inductive means : list byte -> list piece -> Prop :=
| MEnd : means [] []
| MText c s ps : c <> "~"%char -> means s ps -> means (c :: s) (Text c :: ps)
| MDisplay d s ps : d = "a"%char \/ d = "A"%char -> means s ps -> means ("~"%char :: d :: s) (Display :: ps)
| MWrite d s ps : d = "s"%char \/ d = "S"%char -> means s ps -> means ("~"%char :: d :: s) (Write :: ps)
| MNewline s ps : means s ps -> means ("~"%char :: "%"%char :: s) (Newline :: ps)
| MTilde s ps : means s ps -> means ("~"%char :: "~"%char :: s) (Tilde :: ps).
(** How many arguments the pieces take. *)
Fixpoint takes (ps : list piece) : nat :=
  match ps with
  | [] => 0
  | Display :: q | Write :: q => S (takes q)
  | _ :: q => takes q
  end.
Definition LF : byte := ascii_of_nat 10.
(** [output disp wr ps args out]: the pieces with each directive replaced by the next
    argument, all arguments being used. *)
Inductive output {A} (disp wr : A -> list byte) : list piece -> list A -> list byte -> Prop :=
| OEnd : output disp wr [] [] []
| OText c ps xs o : output disp wr ps xs o -> output disp wr (Text c :: ps) xs (c :: o)
| ODisplay ps x xs o : output disp wr ps xs o -> output disp wr (Display :: ps) (x :: xs) (disp x ++ o)
| OWrite ps x xs o : output disp wr ps xs o -> output disp wr (Write :: ps) (x :: xs) (wr x ++ o)
| ONewline ps xs o : output disp wr ps xs o -> output disp wr (Newline :: ps) xs (LF :: o)
| OTilde ps xs o : output disp wr ps xs o -> output disp wr (Tilde :: ps) xs ("~"%char :: o).
(** An open output port and what has been written to it. *)
Definition out_port (ps : list port) (i : nat) (t : list byte) : Prop :=
  exists p, nth_error ps i = Some p /\ input p = false /\ is_open p = true /\ pos (strm p) <= List.length (data (strm p)) /\ firstn (pos (strm p)) (data (strm p)) = t.

(** ** Proofs *)
Lemma is_ch_eq c d r : is_ch c (String d r) = true <-> c = d.
Proof. cbn. apply Ascii.eqb_eq. Qed.
Lemma is_ch_ne c d r : is_ch c (String d r) = false <-> c <> d.
Proof. cbn. apply Ascii.eqb_neq. Qed.
Lemma means_fun s ps : means s ps -> forall qs, means s qs -> ps = qs.
Proof.
  induction 1; intros qs M; inversion M; subst; try congruence; repeat match goal with H : _ \/ _ |- _ => destruct H end; subst; try discriminate; try contradiction; f_equal; auto.
Qed.
Lemma output_takes {A} (disp wr : A -> list byte) ps xs o : output disp wr ps xs o -> length xs = takes ps.
Proof. induction 1; cbn; auto. Qed.
Lemma takes_output {A} (disp wr : A -> list byte) ps : forall xs, length xs = takes ps -> exists o, output disp wr ps xs o.
Proof.
  induction ps as [|p q IH]; intros xs L; [destruct xs; [eexists; constructor|discriminate]|].
  destruct p; cbn in L; try (destruct (IH _ L) as [o O]; eexists; constructor; eauto; fail).
  all: destruct xs as [|x xs]; [discriminate|]; injection L as L; destruct (IH _ L) as [o O]; eexists; constructor; eauto.
Qed.
Lemma skip_two {A} (s : list A) n c d r : skipn n s = c :: d :: r -> n + 1 < length s /\ nth_error s n = Some c /\ nth_error s (n + 1) = Some d /\ skipn (n + 2) s = r.
Proof.
  intros E. assert (N : nth_error s n = Some c) by (rewrite skipn_nth in E; destruct (nth_error s n); congruence).
  assert (E1 : skipn (S n) s = d :: r) by (rewrite skipn_nth, N in E; congruence).
  assert (N1 : nth_error s (S n) = Some d) by (rewrite skipn_nth in E1; destruct (nth_error s (S n)); congruence).
  assert (E2 : skipn (S (S n)) s = r) by (rewrite skipn_nth, N1 in E1; congruence).
  replace (n + 1) with (S n) by lia. replace (n + 2) with (S (S n)) by lia. repeat split; auto. apply nth_error_Some. congruence.
Qed.
Lemma lt1 n m : n + 1 < m -> n < m. Proof. lia. Qed.
Lemma skip_one {A} (s : list A) n c r : skipn n s = c :: r -> n < length s /\ nth_error s n = Some c /\ skipn (n + 1) s = r.
Proof.
  intros E. assert (N : nth_error s n = Some c) by (rewrite skipn_nth in E; destruct (nth_error s n); congruence).
  assert (E1 : skipn (S n) s = r) by (rewrite skipn_nth, N in E; congruence).
  replace (n + 1) with (S n) by lia. repeat split; auto. apply nth_error_Some. congruence.
Qed.
Lemma skip_nil {A} (s : list A) n : skipn n s = [] -> length s <= n.
Proof. intros E. apply (f_equal (@length A)) in E. rewrite skipn_length in E. cbn in E. lia. Qed.

(** The scan of the format string. *)
Lemma scan_ok s : forall r ps, means r ps -> ~ In Tilde ps -> forall n k f, skipn n s = r -> length r < f -> fmt_args f s n k = FOk (k + takes ps).
Proof.
  induction 1 as [|c r ps NE M IH|d r ps D M IH|d r ps D M IH|r ps M IH|r ps M IH]; intros NT n k f E F; (destruct f as [|f]; [cbn in F; lia|]); cbn [fmt_args].
  - apply skip_nil in E. apply Nat.leb_le in E. rewrite E. f_equal. cbn. lia.
  - destruct (skip_one _ _ _ _ E) as [L [N E1]]. rewrite (proj2 (Nat.leb_gt _ _) L), N, (proj2 (is_ch_ne _ _ _) NE). apply IH; auto; [intros X; apply NT; now right|cbn in F; lia].
  - destruct (skip_two _ _ _ _ _ E) as [L [N [N1 E1]]]. rewrite (proj2 (Nat.leb_gt _ _) (lt1 _ _ L)), N. change (is_ch "~" "~") with true. cbv iota. rewrite (proj2 (Nat.leb_gt _ _) L), N1.
    assert (X : is_ch d "a" || is_ch d "A" = true) by (destruct D as [-> | ->]; reflexivity). rewrite X, (IH ltac:(intros Y; apply NT; now right) (n + 2) (S k) f E1) by (cbn in F; lia). cbn [takes]. f_equal. lia.
  - destruct (skip_two _ _ _ _ _ E) as [L [N [N1 E1]]]. rewrite (proj2 (Nat.leb_gt _ _) (lt1 _ _ L)), N. change (is_ch "~" "~") with true. cbv iota. rewrite (proj2 (Nat.leb_gt _ _) L), N1.
    assert (X : is_ch d "a" || is_ch d "A" = false) by (destruct D as [-> | ->]; reflexivity). assert (X2 : is_ch d "s" || is_ch d "S" = true) by (destruct D as [-> | ->]; reflexivity).
    rewrite X, X2, (IH ltac:(intros Y; apply NT; now right) (n + 2) (S k) f E1) by (cbn in F; lia). cbn [takes]. f_equal. lia.
  - destruct (skip_two _ _ _ _ _ E) as [L [N [N1 E1]]]. rewrite (proj2 (Nat.leb_gt _ _) (lt1 _ _ L)), N. change (is_ch "~" "~") with true. cbv iota. rewrite (proj2 (Nat.leb_gt _ _) L), N1.
    cbn [is_ch Ascii.eqb Bool.eqb orb]. rewrite (IH ltac:(intros Y; apply NT; now right) (n + 2) k f E1) by (cbn in F; lia). reflexivity.
  - exfalso. apply NT. now left.
Qed.
(** The scan succeeds on nothing else, and never runs out of fuel. *)
Lemma scan_inv s : forall f n k, length s - n < f -> (exists m, fmt_args f s n k = FOk m) \/ (exists e, fmt_args f s n k = FErr e).
Proof.
  induction f as [|f IH]; intros n k F; [lia|]. cbn [fmt_args]. destruct (Nat.leb_spec (length s) n); [left; eauto|].
  assert (IH' : forall j k', 0 < j -> (exists m, fmt_args f s (n + j) k' = FOk m) \/ (exists e, fmt_args f s (n + j) k' = FErr e)) by (intros j k' J; apply IH; lia).
  repeat match goal with |- context[match ?x with _ => _ end] => match x with context[fmt_args] => fail 1 | _ => destruct x end end; eauto using Nat.lt_0_succ, Nat.lt_0_2, Nat.lt_0_1.
Qed.
Lemma scan_means s : forall f n k m, fmt_args f s n k = FOk m -> exists ps, means (skipn n s) ps /\ ~ In Tilde ps.
Proof.
  induction f as [|f IH]; intros n k m E; [discriminate|]. cbn [fmt_args] in E. destruct (Nat.leb_spec (length s) n) as [L|L].
  { exists []. rewrite skipn_all2 by auto. split; [constructor|auto]. }
  destruct (nth_error s n) as [c|] eqn:N; [|discriminate]. rewrite skipn_nth, N. destruct (is_ch c "~") eqn:C.
  - apply is_ch_eq in C. subst c. destruct (Nat.leb_spec (length s) (n + 1)) as [L1|L1]; [discriminate|]. destruct (nth_error s (n + 1)) as [d|] eqn:N1; [|discriminate].
    replace (n + 1) with (S n) in N1 by lia. rewrite skipn_nth, N1. replace (S (S n)) with (n + 2) by lia.
    destruct (is_ch d "a" || is_ch d "A") eqn:D1; [|destruct (is_ch d "s" || is_ch d "S") eqn:D2; [|destruct (is_ch d "%") eqn:D3]].
    + destruct (IH _ _ _ E) as [ps [M NT]]. exists (Display :: ps). split; [constructor; auto|intros [X|X]; [discriminate|auto]]. apply orb_prop in D1. destruct D1 as [D|D]; apply is_ch_eq in D; auto.
    + destruct (IH _ _ _ E) as [ps [M NT]]. exists (Write :: ps). split; [constructor; auto|intros [X|X]; [discriminate|auto]]. apply orb_prop in D2. destruct D2 as [D|D]; apply is_ch_eq in D; auto.
    + destruct (IH _ _ _ E) as [ps [M NT]]. apply is_ch_eq in D3. subst d. exists (Newline :: ps). split; [constructor; auto|intros [X|X]; [discriminate|auto]].
    + destruct (is_ch d "~"); discriminate.
  - destruct (IH _ _ _ E) as [ps [M NT]]. replace (n + 1) with (S n) in M by lia. exists (Text c :: ps). split; [constructor; auto; now apply is_ch_ne in C|intros [X|X]; [discriminate|auto]].
Qed.
Lemma scan_tilde s : forall r ps, means r ps -> In Tilde ps -> forall n k f, skipn n s = r -> length r < f -> fmt_args f s n k = FErr (FUnbound "xs").
Proof.
  induction 1 as [|c r ps NE M IH|d r ps D M IH|d r ps D M IH|r ps M IH|r ps M IH]; intros T n k f E F; (destruct f as [|f]; [cbn in F; lia|]); cbn [fmt_args]; [destruct T| | | | |].
  - destruct T as [T|T]; [discriminate|]. destruct (skip_one _ _ _ _ E) as [L [N E1]]. rewrite (proj2 (Nat.leb_gt _ _) L), N, (proj2 (is_ch_ne _ _ _) NE). apply IH; auto. cbn in F. lia.
  - destruct T as [T|T]; [discriminate|]. destruct (skip_two _ _ _ _ _ E) as [L [N [N1 E1]]]. rewrite (proj2 (Nat.leb_gt _ _) (lt1 _ _ L)), N. change (is_ch "~" "~") with true. cbv iota. rewrite (proj2 (Nat.leb_gt _ _) L), N1.
    assert (X : is_ch d "a" || is_ch d "A" = true) by (destruct D as [-> | ->]; reflexivity). rewrite X. apply IH; auto. cbn in F. lia.
  - destruct T as [T|T]; [discriminate|]. destruct (skip_two _ _ _ _ _ E) as [L [N [N1 E1]]]. rewrite (proj2 (Nat.leb_gt _ _) (lt1 _ _ L)), N. change (is_ch "~" "~") with true. cbv iota. rewrite (proj2 (Nat.leb_gt _ _) L), N1.
    assert (X : is_ch d "a" || is_ch d "A" = false) by (destruct D as [-> | ->]; reflexivity). assert (X2 : is_ch d "s" || is_ch d "S" = true) by (destruct D as [-> | ->]; reflexivity).
    rewrite X, X2. apply IH; auto. cbn in F. lia.
  - destruct T as [T|T]; [discriminate|]. destruct (skip_two _ _ _ _ _ E) as [L [N [N1 E1]]]. rewrite (proj2 (Nat.leb_gt _ _) (lt1 _ _ L)), N. change (is_ch "~" "~") with true. cbv iota. rewrite (proj2 (Nat.leb_gt _ _) L), N1.
    cbn [is_ch Ascii.eqb Bool.eqb orb]. apply IH; auto. cbn in F. lia.
  - destruct (skip_two _ _ _ _ _ E) as [L [N [N1 E1]]]. rewrite (proj2 (Nat.leb_gt _ _) (lt1 _ _ L)), N. change (is_ch "~" "~") with true. cbv iota. rewrite (proj2 (Nat.leb_gt _ _) L), N1. reflexivity.
Qed.

(** The printing loop. *)
Lemma put_app ps i t b : out_port ps i t -> exists ps',
  pstep ps (PPutString i b) = (ps', PVoid) /\ out_port ps' i (t ++ b) /\ (forall j, j <> i -> nth_error ps' j = nth_error ps j) /\ length ps' = length ps.
Proof.
  intros [p [N [P1 [P2 [L T]]]]]. cbn [pstep]. unfold on_port. rewrite N, P1, P2. cbn [Bool.eqb].
  exists (set_stream i p (putcs b (strm p)) ps). split; auto. assert (LI : i < length ps) by (apply nth_error_Some; congruence). split; [|split].
  - exists (mkport (input p) (is_open p) (putcs b (strm p))). unfold set_stream. rewrite nth_upd_eq by auto. cbn. destruct (putcs_ok b (strm p) L) as [X Y]. rewrite X, T. auto.
  - intros j NJ. apply nth_upd_ne. auto.
  - apply upd_length.
Qed.
Lemma put_char ps i c : pstep ps (PPutChar i c) = pstep ps (PPutString i [c]). Proof. reflexivity. Qed.
Lemma put_newline ps i : pstep ps (PNewline i) = pstep ps (PPutString i [LF]). Proof. reflexivity. Qed.

Section Proofs.
Variable A : Type.
Variables disp wr : A -> list byte.
Lemma do_ok s : forall r pcs, means r pcs -> forall xs o, output disp wr pcs xs o -> forall n f ps i t, skipn n s = r -> length r < f -> out_port ps i t ->
  exists ps', do_format disp wr f ps i s n xs = (FOk tt, ps') /\ out_port ps' i (t ++ o) /\ (forall j, j <> i -> nth_error ps' j = nth_error ps j) /\ length ps' = length ps.
Proof.
  assert (NEXT : forall ps i t b (k : list port -> fres unit * list port) o, out_port ps i t ->
    (forall ps1, out_port ps1 i (t ++ b) -> exists ps', k ps1 = (FOk tt, ps') /\ out_port ps' i ((t ++ b) ++ o) /\ (forall j, j <> i -> nth_error ps' j = nth_error ps1 j) /\ length ps' = length ps1) ->
    exists ps', then_ (pstep ps (PPutString i b)) k = (FOk tt, ps') /\ out_port ps' i (t ++ b ++ o) /\ (forall j, j <> i -> nth_error ps' j = nth_error ps j) /\ length ps' = length ps).
  { intros ps i t b k o O K. destruct (put_app ps i t b O) as [ps1 [E [O1 [J LL]]]]. rewrite E. cbn [then_]. destruct (K ps1 O1) as [ps' [E' [O' [J' LL']]]].
    exists ps'. rewrite app_assoc. split; auto. split; auto. split; [intros j NJ; rewrite J', J; auto|congruence]. }
  induction 1 as [|c r pcs NE M IH|d r pcs D M IH|d r pcs D M IH|r pcs M IH|r pcs M IH]; intros xs o O n f ps i t E F OP; (destruct f as [|f]; [cbn in F; lia|]); cbn [do_format].
  - inversion O; subst. apply skip_nil in E. rewrite (proj2 (Nat.leb_le _ _) E). exists ps. rewrite app_nil_r. auto.
  - inversion O; subst. destruct (skip_one _ _ _ _ E) as [L [N E1]]. rewrite (proj2 (Nat.leb_gt _ _) L), N, (proj2 (is_ch_ne _ _ _) NE), put_char. apply (NEXT ps i t [c]); auto.
    intros ps1 O1. eapply IH; eauto. cbn in F. lia.
  - inversion O; subst. destruct (skip_two _ _ _ _ _ E) as [L [N [N1 E1]]]. rewrite (proj2 (Nat.leb_gt _ _) (lt1 _ _ L)), N. change (is_ch "~" "~") with true. cbv iota. rewrite N1.
    assert (X : is_ch d "a" || is_ch d "A" = true) by (destruct D as [-> | ->]; reflexivity). rewrite X. apply NEXT; auto. intros ps1 O1. eapply IH; eauto. cbn in F. lia.
  - inversion O; subst. destruct (skip_two _ _ _ _ _ E) as [L [N [N1 E1]]]. rewrite (proj2 (Nat.leb_gt _ _) (lt1 _ _ L)), N. change (is_ch "~" "~") with true. cbv iota. rewrite N1.
    assert (X : is_ch d "a" || is_ch d "A" = false) by (destruct D as [-> | ->]; reflexivity). assert (X2 : is_ch d "s" || is_ch d "S" = true) by (destruct D as [-> | ->]; reflexivity).
    rewrite X, X2. apply NEXT; auto. intros ps1 O1. eapply IH; eauto. cbn in F. lia.
  - inversion O; subst. destruct (skip_two _ _ _ _ _ E) as [L [N [N1 E1]]]. rewrite (proj2 (Nat.leb_gt _ _) (lt1 _ _ L)), N. change (is_ch "~" "~") with true. cbv iota. rewrite N1.
    cbn [is_ch Ascii.eqb Bool.eqb orb]. rewrite put_newline. apply (NEXT ps i t [LF]); auto. intros ps1 O1. eapply IH; eauto. cbn in F. lia.
  - inversion O; subst. destruct (skip_two _ _ _ _ _ E) as [L [N [N1 E1]]]. rewrite (proj2 (Nat.leb_gt _ _) (lt1 _ _ L)), N. change (is_ch "~" "~") with true. cbv iota. rewrite N1.
    cbn [is_ch Ascii.eqb Bool.eqb orb]. rewrite put_char. apply (NEXT ps i t ["~"%char]); auto. intros ps1 O1. eapply IH; eauto. cbn in F. lia.
Qed.
Lemma check_ok s pcs (args : list A) : means s pcs -> ~ In Tilde pcs -> check_format s (length args) = if Nat.eqb (takes pcs) (length args) then FOk tt else FErr (FCount (takes pcs) (length args)).
Proof. intros M NT. unfold check_format, fmt_fuel. rewrite (scan_ok s s pcs M NT 0 0 (S (length s))); auto. Qed.

(** ** Theorems *)

(** fprintf (printf, eprintf) writes the format text with the directives replaced. *)
Theorem C49_fprintf_partial ps i t fmt pcs args o : out_port ps i t -> means (cstr fmt) pcs -> ~ In Tilde pcs -> output disp wr pcs args o ->
  exists ps', fprintf disp wr ps i fmt args = (FOk tt, ps') /\ out_port ps' i (t ++ o) /\ (forall j, j <> i -> nth_error ps' j = nth_error ps j).
Proof.
  intros OP M NT O. assert (OP' := OP). destruct OP' as [p [N [P1 [P2 _]]]]. unfold fprintf. rewrite N, P1. unfold checked, shown.
  rewrite (check_ok _ pcs args M NT), <- (output_takes _ _ _ _ _ O), Nat.eqb_refl. unfold fmt_fuel.
  destruct (do_ok (cstr fmt) _ _ M _ _ O 0 (S (length (cstr fmt))) ps i t) as [ps' [E [O' [J _]]]]; auto. exists ps'. auto.
Qed.
(** format returns that text as a string (whose visible part ends at a NUL). *)
Theorem C49_format_partial ps fmt pcs args o : means (cstr fmt) pcs -> ~ In Tilde pcs -> output disp wr pcs args o ->
  exists ps', format disp wr ps fmt args = (FOk (cstr o), ps') /\ (forall j, j < length ps -> nth_error ps' j = nth_error ps j).
Proof.
  intros M NT O. unfold format, shown. rewrite (check_ok _ pcs args M NT), <- (output_takes _ _ _ _ _ O), Nat.eqb_refl. cbn [pstep]. unfold fmt_fuel.
  set (i := length ps). set (ps1 := ps ++ [mkport false true (mkstream [] 0)]).
  assert (OP : out_port ps1 i []). { exists (mkport false true (mkstream [] 0)). unfold ps1, i. rewrite nth_error_app2, Nat.sub_diag by auto. cbn. auto. }
  destruct (do_ok (cstr fmt) _ _ M _ _ O 0 (S (length (cstr fmt))) ps1 i [] eq_refl ltac:(auto) OP) as [ps2 [E [O2 [J LL]]]]. change (List.length ps) with i. rewrite E.
  destruct O2 as [p [N [P1 [P2 [L T]]]]]. cbn [pstep]. unfold on_port. rewrite N, P1, P2. cbn [Bool.eqb app] in *. destruct (Nat.eqb_spec (pos (strm p)) 0) as [Z|Z].
  - rewrite Z in T. cbn in T. subst o. exists ps2. split; auto. intros j LJ. rewrite J by (unfold i; lia). unfold ps1. apply nth_error_app1. auto.
  - unfold fread, to_start. cbn [pos data]. rewrite Nat.sub_0_r, (proj2 (Nat.leb_le _ _) L). cbn [skipn]. rewrite T. eexists. split; [reflexivity|].
    intros j LJ. unfold set_stream. rewrite nth_upd_ne by (unfold i; lia). rewrite J by (unfold i; lia). unfold ps1. apply nth_error_app1. auto.
Qed.
(** Any other number of arguments is an error, and nothing is written. *)
Theorem C49_argument_count ps i t fmt pcs args : out_port ps i t -> means (cstr fmt) pcs -> ~ In Tilde pcs -> length args <> takes pcs ->
  fprintf disp wr ps i fmt args = (FErr (FCount (takes pcs) (length args)), ps) /\ format disp wr ps fmt args = (FErr (FCount (takes pcs) (length args)), ps).
Proof.
  intros [p [N [P1 _]]] M NT NE. unfold fprintf, format, checked, shown. rewrite N, P1, (check_ok _ pcs args M NT). destruct (Nat.eqb_spec (takes pcs) (length args)); [congruence|auto].
Qed.
(** format and fprintf always return or raise an error; an error is raised exactly if the
    format string is malformed (or has a ~~, see below) or the number of arguments differs
    from the number of directives; then nothing has been written. *)
Theorem C49_error_iff_partial ps i t fmt args : out_port ps i t ->
  ((exists ps', fprintf disp wr ps i fmt args = (FOk tt, ps')) <-> (exists pcs, means (cstr fmt) pcs /\ ~ In Tilde pcs /\ length args = takes pcs)) /\
  ((exists s ps', format disp wr ps fmt args = (FOk s, ps')) <-> (exists pcs, means (cstr fmt) pcs /\ ~ In Tilde pcs /\ length args = takes pcs)) /\
  (~ (exists pcs, means (cstr fmt) pcs /\ ~ In Tilde pcs /\ length args = takes pcs) ->
   (exists e, fprintf disp wr ps i fmt args = (FErr e, ps)) /\ exists e, format disp wr ps fmt args = (FErr e, ps)).
Proof.
  intros OP. assert (OP' := OP). destruct OP' as [p [N [P1 _]]].
  assert (W : forall pcs, means (cstr fmt) pcs -> ~ In Tilde pcs -> length args = takes pcs -> (exists ps', fprintf disp wr ps i fmt args = (FOk tt, ps')) /\ exists s ps', format disp wr ps fmt args = (FOk s, ps')).
  { intros pcs M NT L. destruct (takes_output disp wr pcs args L) as [o O]. destruct (C49_fprintf_partial ps i t fmt pcs args o OP M NT O) as [ps' [E _]].
    destruct (C49_format_partial ps fmt pcs args o M NT O) as [ps2 [E2 _]]. eauto. }
  assert (B : (exists pcs, means (cstr fmt) pcs /\ ~ In Tilde pcs /\ length args = takes pcs) \/
              ((exists e, fprintf disp wr ps i fmt args = (FErr e, ps)) /\ exists e, format disp wr ps fmt args = (FErr e, ps))).
  { unfold fprintf, format, checked, shown. rewrite N, P1. unfold check_format. destruct (scan_inv (cstr fmt) (fmt_fuel (cstr fmt)) 0 0 ltac:(unfold fmt_fuel; lia)) as [[m E]|[e E]].
    - destruct (scan_means _ _ _ _ _ E) as [pcs [M NT]]. cbn [skipn] in M. assert (m = takes pcs). { rewrite (scan_ok (cstr fmt) _ pcs M NT 0 0 (fmt_fuel (cstr fmt)) eq_refl ltac:(unfold fmt_fuel; lia)) in E. injection E as <-. reflexivity. }
      subst m. rewrite E. destruct (Nat.eqb_spec (takes pcs) (length args)) as [Q|Q]; [left; eauto|right; eauto].
    - right. rewrite E. eauto. }
  split; [|split].
  - split; [|intros [pcs [M [NT L]]]; apply (W pcs M NT L)]. intros [ps' E]. destruct B as [B|[[e E'] _]]; auto. congruence.
  - split; [|intros [pcs [M [NT L]]]; apply (W pcs M NT L)]. intros [s [ps' E]]. destruct B as [B|[_ [e E']]]; auto. congruence.
  - intros X. destruct B as [B|B]; [contradiction|auto].
Qed.
(** A string with the directive ~~ is always rejected: the scanner refers to an unbound
    variable, although the printing loop would print a tilde. *)
Theorem C49_tilde_refuted ps fmt pcs args : means (cstr fmt) pcs -> In Tilde pcs -> format disp wr ps fmt args = (FErr (FUnbound "xs"), ps).
Proof.
  intros M T. unfold format, check_format, shown, fmt_fuel. rewrite (scan_tilde (cstr fmt) _ pcs M T 0 0 (S (length (cstr fmt)))); auto.
Qed.
(** fprintf to anything but an output port is an error. *)
Theorem C49_not_a_port ps i fmt args : (forall p, nth_error ps i = Some p -> input p = true) -> fprintf disp wr ps i fmt args = (FErr FPort, ps).
Proof. intros H. unfold fprintf. destruct (nth_error ps i) as [p|]; auto. rewrite (H p eq_refl). reflexivity. Qed.
End Proofs.

(** ** Examples, with the printers of Reader.v *)
Definition ex_disp (o : obj) : list byte := match o with OStr b => cstr b | _ => write o end.
Example C49_ex_means : means (cstr (s2b "x=~a, ~S~%")) [Text "x"; Text "="; Display; Text ","; Text " "; Write; Newline].
Proof. repeat (constructor; [discriminate|]). apply MDisplay; [auto|]. repeat (constructor; [discriminate|]). apply MWrite; [auto|]. apply MNewline. constructor. Qed.
Example C49_ex_format : fst (format ex_disp write [] (s2b "x=~a, ~S~%") [OStr (s2b "ab"); OStr (s2b "ab")]) = FOk (s2b "x=ab, ""ab""" ++ [LF]).
Proof. reflexivity. Qed.
Example C49_ex_fprintf : out_port [mkport false true (mkstream (s2b "> ") 2)] 0 (s2b "> ") /\
  fprintf ex_disp write [mkport false true (mkstream (s2b "> ") 2)] 0 (s2b "~a!") [OFix 12] = (FOk tt, [mkport false true (mkstream (s2b "> 12!") 5)]).
Proof. split; [|reflexivity]. eexists. split; [reflexivity|]. cbn. auto. Qed.
Example C49_ex_too_many : fst (format ex_disp write [] (s2b "~a") [ONull; ONull]) = FErr (FCount 1 2). Proof. reflexivity. Qed.
Example C49_ex_ill : fst (format ex_disp write [] (s2b "100~") []) = FErr FIll. Proof. reflexivity. Qed.
Example C49_ex_unknown : fst (format ex_disp write [] (s2b "~d") [OFix 1]) = FErr (FUnknown "d"). Proof. reflexivity. Qed.
Example C49_ex_tilde : means (s2b "~~") [Tilde] /\ fst (format ex_disp write [] (s2b "~~") []) = FErr (FUnbound "xs"). Proof. split; [repeat constructor|reflexivity]. Qed.

Print Assumptions C49_fprintf_partial.
Print Assumptions C49_format_partial.
Print Assumptions C49_argument_count.
Print Assumptions C49_error_iff_partial.
Print Assumptions C49_tilde_refuted.
Print Assumptions C49_not_a_port.
