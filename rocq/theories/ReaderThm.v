(** C23, C24, C25: the reader and the printers. *)
From Coq Require Import ZArith NArith Bool Ascii String List Lia.
From Verif Require Import Base Decimal Reader ReaderProofs.
Import ListNotations.
Local Open Scope list_scope.

Lemma reads_det s o k o' k' : reads s o k -> reads s o' k' -> o = o' /\ k = k'.
Proof.
  intros [f R] [f' R']. assert (A := mono_object _ (Nat.max f f') _ _ R ltac:(discriminate) ltac:(lia)).
  assert (B := mono_object _ (Nat.max f f') _ _ R' ltac:(discriminate) ltac:(lia)). rewrite A in B. injection B as -> ->. auto.
Qed.
Lemma reads_fails s o k e : reads s o k -> ~ read_fails s e.
Proof.
  intros [f R] [f' R']. assert (A := mono_object _ (Nat.max f f') _ _ R ltac:(discriminate) ltac:(lia)).
  assert (B := mono_object _ (Nat.max f f') _ _ R' ltac:(discriminate) ltac:(lia)). congruence.
Qed.

(** ** C24: whitespace and comments *)

(** A text made of whitespace characters and complete line comments. *)
Inductive blank : list byte -> Prop :=
| BlNil : blank []
| BlSpace c w : In c (s2b " " ++ ["009"; "010"; "011"; "012"; "013"]%char) -> blank w -> blank (c :: w)
| BlLine l w : ~ In "010"%char l -> blank w -> blank (";"%char :: l ++ "010"%char :: w).
Lemma blank_ws w k : blank w -> ws w k.
Proof.
  induction 1 as [|c w I _ IH|l w N _ IH]; [apply WsNil|apply WsSpace|apply WsLine]; auto.
  simpl in I. repeat (destruct I as [<-|I]; [reflexivity|]). destruct I.
Qed.

(** Whatever [read] does on a text (return a datum and a rest, report an error,
    run into undefined behaviour, or not return), it does the same when blank
    text is put in front. *)
Theorem C24_blank_prefix w s :
  blank w ->
  (forall o k, reads (w ++ s) o k <-> reads s o k) /\
  (forall e, read_fails (w ++ s) e <-> read_fails s e) /\
  (read_undef (w ++ s) <-> read_undef s) /\
  (forall f, read_object f (w ++ s) = RFuel <-> read_object f s = RFuel).
Proof.
  intros B. assert (E : forall f, read_object f (w ++ s) = read_object f s) by (intros f; apply read_ws, blank_ws, B).
  unfold reads, read_fails, read_undef.
  split; [|split; [|split]]; intros; try (split; intros [f R]; exists f; [rewrite <- E|rewrite E]; exact R).
  rewrite E. tauto.
Qed.
(** The same between the elements of a list and in front of the closing bracket:
    blank text in front of any part of a list is ignored. *)
Theorem C24_blank_in_list w op s f : blank w -> read_pair f op (w ++ s) = read_pair f op s.
Proof. intros B. apply pair_ws, blank_ws, B. Qed.
Theorem C24_blank_in_vector w acc s f : blank w -> read_vector f acc (w ++ s) = read_vector f acc s.
Proof. intros B. apply vector_ws, blank_ws, B. Qed.
(** A line comment that is ended by the end of the input. *)
Theorem C24_last_comment w l : blank w -> ~ In "010"%char l -> reads (w ++ ";"%char :: l) no_object [].
Proof.
  intros B N. apply (C24_blank_prefix w _ B). exists 1%nat. cbn [read_object].
  change (skip false (";"%char :: l)) with (skip true l). rewrite (skip_comment_end _ N). reflexivity.
Qed.
(** Block comments ([body]: what may stand between the outer brackets of a block
    comment; block comments nest). *)
Theorem C24_block_comment b s :
  body b ->
  (forall o k, reads (s2b "#|" ++ b ++ s2b "|#" ++ s) o k <-> reads s o k) /\
  (forall e, read_fails (s2b "#|" ++ b ++ s2b "|#" ++ s) e <-> read_fails s e).
Proof.
  intros B. assert (E : forall f, read_object (S f) (s2b "#|" ++ b ++ s2b "|#" ++ s) = read_object f s).
  { intros f. cbn [read_object]. rewrite skip_solid by (simpl; split; [reflexivity|discriminate]). simpl.
    rewrite (block_body _ B). reflexivity. }
  unfold reads, read_fails. split; intros; split; intros [f R].
  - destruct f; [discriminate|]. exists f. rewrite <- E. exact R.
  - exists (S f). rewrite E. exact R.
  - destruct f; [discriminate|]. exists f. rewrite <- E. exact R.
  - exists (S f). rewrite E. exact R.
Qed.
(** Datum comments: the datum after the mark is read and forgotten. *)
Theorem C24_datum_comment s d r :
  (exists w c q, s = w ++ c :: q /\ blank w /\ is_space c = false /\ c <> ";"%char /\ c <> xFF) ->
  reads s d r ->
  (forall o k, reads (s2b "#;" ++ s) o k <-> reads r o k) /\
  (forall e, read_fails (s2b "#;" ++ s) e <-> read_fails r e).
Proof.
  intros [w [c [q [-> [B [C1 [C2 C3]]]]]]] [f0 R0].
  assert (E : forall f, (f0 <= f)%nat -> read_object (S f) (s2b "#;" ++ w ++ c :: q) = read_object f r).
  { intros f L. cbn [read_object]. rewrite skip_solid by (simpl; split; [reflexivity|discriminate]). cbn [s2b list_ascii_of_string app].
    change (beq "#" "#") with true. cbv iota.
    change (beq ";" "%") with false. change (beq ";" "t") with false. change (beq ";" "f") with false. change (beq ";" "\") with false.
    change (beq ";" "'") with false. change (beq ";" "(") with false. change (beq ";" "&") with false. change (beq ";" "x") with false.
    change (beq ";" ";") with true. cbv iota.
    rewrite (skip_at w c q (blank_ws _ _ B) C1 C2). rewrite (proj2 (beq_ne _ _) C3).
    rewrite (read_ws _ _ _ (blank_ws _ _ B)) in R0. rewrite (mono_object _ f _ _ R0) by (discriminate || lia). reflexivity. }
  assert (M : forall x, x <> RFuel -> ((exists f, read_object f (s2b "#;" ++ w ++ c :: q) = x) <-> (exists f, read_object f r = x))).
  { intros x NX. split; intros [f R].
    - exists (Nat.max f f0). rewrite <- E by lia. apply (mono_object f); auto; lia.
    - exists (S (Nat.max f f0)). rewrite E by lia. apply (mono_object f); auto; lia. }
  split; intros; apply M; discriminate.
Qed.
(** A block or datum comment in front of a closing bracket is not skipped: the
    bracket is reported as unexpected. *)
Theorem C24_comment_before_bracket_refuted :
  exists w, body w /\ reads (s2b "(a)") (OPair (OSym (s2b "a")) ONull) [] /\
    read_fails (s2b "(a " ++ s2b "#|" ++ w ++ s2b "|#" ++ s2b ")") (EInput ")"%char).
Proof.
  exists (s2b " b "). split; [repeat (apply BChar; [discriminate|discriminate|discriminate|]); apply BNil|].
  split; exists 9%nat; reflexivity.
Qed.
Example C24_ex : exists w, blank w /\ w = s2b "  ; a comment" ++ "010"%char :: s2b " " /\ reads (w ++ s2b "(a b) c") (OPair (OSym (s2b "a")) (OPair (OSym (s2b "b")) ONull)) (s2b " c").
Proof.
  eexists. split; [|split; [reflexivity|exists 9%nat; reflexivity]].
  apply BlSpace; [left; reflexivity|]. apply BlSpace; [left; reflexivity|]. apply (BlLine (s2b " a comment")).
  - simpl. intros H. repeat (destruct H as [H|H]; [discriminate|]). exact H.
  - apply BlSpace; [left; reflexivity|]. apply BlNil.
Qed.
Example C24_block_ex : reads (s2b "#| x #| y |# z |# 42") (OFix 42) [].
Proof.
  apply (proj1 (C24_block_comment (s2b " x #| y |# z ") (s2b " 42")
    ltac:(repeat (apply BChar; [discriminate|discriminate|discriminate|]);
          apply (BNest (s2b " y ") (s2b " z ")); repeat (apply BChar; [discriminate|discriminate|discriminate|]); apply BNil))).
  exists 9%nat. reflexivity.
Qed.
Example C24_datum_ex : reads (s2b "#; (a b) 42") (OFix 42) [].
Proof.
  assert (D : reads (s2b " (a b) 42") (OPair (OSym (s2b "a")) (OPair (OSym (s2b "b")) ONull)) (s2b " 42")) by (exists 9%nat; reflexivity).
  refine (proj2 (proj1 (C24_datum_comment (s2b " (a b) 42") _ _ _ D) (OFix 42) []) _); [|exists 9%nat; reflexivity].
  exists (s2b " "), "("%char, (s2b "a b) 42"). repeat split; try discriminate. apply BlSpace; [left; reflexivity|apply BlNil].
Qed.

(** ** C25: brackets *)

(** What is left after reading is always the end of the input. *)
Lemma suffix_span p : forall s a b, span p s = (a, b) -> s = a ++ b. Proof. intros s a b H. apply (span_spec _ _ _ _ H). Qed.
Definition rests {A} (s : list byte) (r : rres A) : Prop := forall o k, r = ROk o k -> exists t, s = t ++ k.
Lemma rests_ok {A} s (a : A) k : (exists t, s = t ++ k) -> rests s (ROk a k). Proof. intros H o k' E. injection E as _ <-. exact H. Qed.
Lemma rests_app {A} t s (r : rres A) : rests s r -> rests (t ++ s) r.
Proof. intros H o k E. destruct (H _ _ E) as [u ->]. exists (t ++ u). apply app_assoc. Qed.
Lemma rests_cons {A} c s (r : rres A) : rests s r -> rests (c :: s) r. Proof. apply (rests_app [c]). Qed.
Lemma rests_err {A} s e : @rests A s (RErr e). Proof. intros o k E. discriminate. Qed.
Lemma rests_undef {A} s : @rests A s RUndef. Proof. intros o k E. discriminate. Qed.
Lemma rests_fuel {A} s : @rests A s RFuel. Proof. intros o k E. discriminate. Qed.
#[local] Hint Resolve rests_err rests_undef rests_fuel : core.
Lemma rests_unget {A} s (a : A) : rests s (ROk a (unget_char s)).
Proof. apply rests_ok. destruct s as [|c q]; [exists []; auto|]. simpl. destruct (beq c xFF); [exists [c]|exists []]; auto. Qed.
Lemma rests_symbol buf s : rests s (read_symbol buf s).
Proof.
  unfold read_symbol. destruct (span is_symc s) as [t r] eqn:S. apply suffix_span in S. subst s.
  destruct (_ <? _)%N; auto. destruct (_ =? _)%N; auto. apply rests_app, rests_unget.
Qed.
Lemma rests_tail sg buf ds rest v : rests rest (number_tail sg buf ds rest v).
Proof.
  unfold number_tail. destruct (_ <? _)%N; auto. destruct (_ <=? _)%N; auto. destruct rest as [|c q].
  - apply rests_ok. exists []. auto.
  - destruct (is_symc c); [apply rests_symbol|apply rests_unget].
Qed.
Lemma rests_num hex c s : rests (match c with Some x => x :: s | None => s end) (read_num hex c s).
Proof.
  unfold read_num. destruct (span (digit hex) (unsigned_of c s)) as [ds r] eqn:S. apply suffix_span in S.
  assert (H := rests_tail (sign_of c) (buf_of c) ds r (value hex ds)). apply (rests_app ds) in H. rewrite <- S in H.
  destruct c as [x|]; auto. unfold unsigned_of in H. simpl in H. destruct (beq x "-" || beq x "+" || beq x xFF); auto. apply rests_cons; auto.
Qed.
Lemma rests_named n : forall s v, rests s (read_named n s v).
Proof.
  induction n as [|x n IH]; intros s v; destruct s as [|c q]; simpl; auto.
  - apply rests_ok. exists []. auto.
  - destruct (delim_ahead (c :: q)) eqn:D; unfold delim_ahead in D; rewrite D; auto. apply rests_ok. exists []. auto.
  - destruct (beq x c); auto. apply rests_cons, IH.
Qed.
Lemma rests_char s : rests s (read_char s).
Proof.
  unfold read_char. destruct s as [|c q]; auto. destruct (beq c xFF); auto. apply rests_cons.
  destruct (match q with nc :: _ => find_name char_names c nc | [] => None end) as [[n v]|]; [apply rests_named|].
  destruct q as [|d q]; [apply rests_ok; exists []; auto|]. destruct (delim_ahead (d :: q)); auto. apply rests_ok; exists []; auto.
Qed.
Lemma rests_string n : forall s buf, (List.length s <= n)%nat -> rests s (read_string buf s).
Proof.
  induction n as [|n IH]; intros s buf L; destruct s as [|c q]; simpl in *; auto; try lia.
  destruct (beq c """"); [destruct (_ =? _)%N; auto; apply rests_ok; exists [c]; auto|]. destruct (beq c xFF); auto.
  destruct (beq c "\").
  - destruct q as [|e q]; auto. simpl in L. destruct (escape e); auto. destruct (_ <=? _)%N; auto. apply rests_cons, rests_cons, IH. lia.
  - destruct (_ <=? _)%N; auto. apply rests_cons, IH. lia.
Qed.
Lemma rests_block n : forall lvl s, (List.length s <= n)%nat -> rests s (block lvl s).
Proof.
  intros lvl s L o k E. destruct o. destruct (block_inv _ _ _ _ L E) as [t [-> _]]. eauto.
Qed.
Lemma rests_bind {A B} s (r : rres A) (g : A -> list byte -> rres B) :
  rests s r -> (forall a k, rests k (g a k)) ->
  rests s (match r with ROk a k => g a k | RErr e => RErr e | RUndef => RUndef | RFuel => RFuel end).
Proof.
  intros H G. destruct r as [a k| | |]; auto. intros o k' E. destruct (H _ _ eq_refl) as [t ->]. destruct (G _ _ _ _ E) as [u ->].
  exists (t ++ u). apply app_assoc.
Qed.
Lemma rests_skip {A} s (r : rres A) : rests (skip false s) r -> rests s r.
Proof. intros H. destruct (skip_spec s) as [w [E _]]. rewrite E. apply rests_app, H. Qed.
Lemma rests_all f :
  (forall s, rests s (read_object f s)) /\
  (forall op s, rests s (read_pair f op s) /\
     forall o k, read_pair f op s = ROk o k -> exists t c, s = t ++ c :: k /\ matching op c = true) /\
  (forall acc s, rests s (read_vector f acc s) /\
     forall o k, read_vector f acc s = ROk o k -> exists t, s = t ++ ")"%char :: k).
Proof.
  induction f as [|f [IO [IP IV]]].
  { split; [simpl; auto|]. split; intros; split; simpl; auto; discriminate. }
  assert (PC : forall op s o k, read_pair (S f) op s = ROk o k -> exists t c, s = t ++ c :: k /\ matching op c = true).
  { intros op s o k R. cbn [read_pair] in R. destruct (skip_spec s) as [w [E _]]. rewrite E. clear E. destruct (skip false s) as [|c q]; [discriminate|].
    destruct (beq c xFF); [discriminate|]. destruct (is_close c).
    { destruct (matching op c) eqn:M; [|discriminate]. injection R as _ <-. exists w, c. auto. }
    destruct (read_object f (c :: q)) as [a r| | |] eqn:R1; try discriminate. destruct (IO _ _ _ R1) as [t ->].
    destruct (skip_spec r) as [w2 [E2 _]]. rewrite E2. clear E2. destruct (skip false r) as [|d r']; [discriminate|].
    destruct (beq d xFF); [discriminate|]. destruct (beq d "." && _).
    - destruct (read_object f r') as [b r2| | |] eqn:R2; try discriminate. destruct (IO _ _ _ R2) as [t2 ->].
      destruct (skip_spec r2) as [w3 [E3 _]]. rewrite E3. clear E3. destruct (skip false r2) as [|e r3]; [discriminate|].
      destruct (beq e xFF); [discriminate|]. destruct (is_close e); [|discriminate]. destruct (matching op e) eqn:M; [|discriminate].
      injection R as _ <-. exists (w ++ t ++ w2 ++ d :: t2 ++ w3), e. split; auto. repeat (rewrite <- app_assoc || cbn [app]). reflexivity.
    - destruct (read_pair f op (d :: r')) as [b r2| | |] eqn:R2; try discriminate. injection R as _ <-.
      destruct (proj2 (IP _ _) _ _ R2) as [t2 [e [E M]]]. rewrite E. exists (w ++ t ++ w2 ++ t2), e. split; auto.
      repeat (rewrite <- app_assoc || cbn [app]). reflexivity. }
  assert (VC : forall acc s o k, read_vector (S f) acc s = ROk o k -> exists t, s = t ++ ")"%char :: k).
  { intros acc s o k R. cbn [read_vector] in R. cbv zeta in R. destruct (skip_spec s) as [w [E _]]. rewrite E. clear E.
    assert (HO : match read_object f (skip false s) with ROk x r => read_vector f (x :: acc) r | e => e end = ROk o k ->
                 exists t, w ++ skip false s = t ++ ")"%char :: k).
    { clear R. intros R. destruct (read_object f (skip false s)) as [x r| | |] eqn:R1; try discriminate.
      destruct (IO _ _ _ R1) as [t ->]. destruct (proj2 (IV _ _) _ _ R) as [t2 ->]. exists (w ++ t ++ t2). rewrite <- !app_assoc. reflexivity. }
    destruct (skip false s) as [|c q]; auto. destruct (beq c ")") eqn:C; auto. apply beq_eq in C. subst c.
    unfold read_char in R. change (beq ")" xFF) with false in R. cbv iota in R.
    assert (FN : match q with nc :: _ => find_name char_names ")"%char nc | [] => None end = None) by (destruct q; reflexivity).
    rewrite FN in R. destruct q as [|d q].
    - injection R as _ <-. exists w. reflexivity.
    - destruct (delim_ahead (d :: q)); [|discriminate]. injection R as _ <-. exists w. reflexivity. }
  split; [|split].
  - intros s. cbn [read_object]. apply rests_skip. destruct (skip false s) as [|c q]; [apply rests_ok; exists []; auto|].
    destruct (beq c "#").
    + destruct q as [|d q]; auto. destruct (beq d "%"); [apply rests_symbol|].
      destruct (beq d "t"); [apply rests_ok; exists [c; d]; auto|]. destruct (beq d "f"); [apply rests_ok; exists [c; d]; auto|].
      apply rests_cons, rests_cons.
      destruct (beq d "\"); [apply rests_char|]. destruct (beq d "'"); [apply rests_bind; auto; intros; apply rests_ok; exists []; auto|].
      destruct (beq d "("); [apply IV|]. destruct (beq d "&"); [apply rests_bind; auto; intros; apply rests_ok; exists []; auto|].
      destruct (beq d "x"); [rewrite read_hex_num; destruct q as [|x q]; [apply (rests_num true None)|apply (rests_num true (Some x))]|].
      destruct (beq d ";").
      { apply rests_skip. destruct (skip false q) as [|x r]; auto. destruct (beq x xFF); auto. apply rests_bind; auto. }
      destruct (beq d "|"); auto. apply rests_bind; auto. apply (rests_block _ _ _ (le_n _)).
    + destruct (is_digit c || _); [rewrite read_dec_num; apply (rests_num false (Some c))|].
      destruct (beq c """"); [apply rests_cons, (rests_string _ _ _ (le_n _))|].
      destruct (is_open c); [apply rests_cons, IP|].
      destruct (beq c "'"); [apply rests_cons, rests_bind; auto; intros; apply rests_ok; exists []; auto|].
      destruct (is_symc c); [apply rests_symbol|]. destruct (beq c xFF); auto. apply rests_ok. exists [c]. auto.
  - intros op s. split; [|apply PC]. intros o k R. destruct (PC _ _ _ _ R) as [t [c [-> _]]]. exists (t ++ [c]). rewrite <- app_assoc. reflexivity.
  - intros acc s. split; [|apply VC]. intros o k R. destruct (VC _ _ _ _ R) as [t ->]. exists (t ++ [")"%char]). rewrite <- app_assoc. reflexivity.
Qed.

(** For every input: when [read] returns the datum that starts with an opening
    bracket, the last character it has consumed is the closing bracket of the
    same kind. *)
Theorem C25_list_ends_with_matching_bracket op s o k :
  In op (s2b "([{") -> reads (op :: s) o k ->
  exists t closed, s = t ++ closed :: k /\ In (op, closed) [("("%char, ")"%char); ("["%char, "]"%char); ("{"%char, "}"%char)].
Proof.
  intros OP [f R]. destruct f as [|f]; [discriminate|].
  assert (E : read_object (S f) (op :: s) = read_pair f op s) by (simpl in OP; repeat (destruct OP as [<-|OP]; [reflexivity|]); destruct OP).
  rewrite E in R. destruct (proj2 (proj1 (proj2 (rests_all f)) _ _) _ _ R) as [t [c [-> M]]]. exists t, c. split; auto.
  unfold matching in M. rewrite !orb_true_iff, !andb_true_iff, !beq_eq in M.
  destruct M as [[[-> ->]|[-> ->]]|[-> ->]]; simpl; auto.
Qed.
Theorem C25_vector_ends_with_bracket s o k : reads (s2b "#(" ++ s) o k -> exists t, s = t ++ ")"%char :: k.
Proof. intros [f R]. destruct f as [|f]; [discriminate|]. apply (proj2 (proj2 (proj2 (rests_all f)) [] s) o k). exact R. Qed.

(** The value of a number in the grammar: the usual reading of digits, in base 10 or 16. *)
Theorem C25_digit_values hex l c i :
  value hex [] = 0%N /\
  (nth_error (s2b (if hex then "0123456789abcdef" else "0123456789")) i = Some c \/ nth_error (s2b (if hex then "0123456789ABCDEF" else "0123456789")) i = Some c ->
   digit hex c = true /\ value hex (l ++ [c]) = ((if hex then 16 else 10) * value hex l + N.of_nat i)%N).
Proof.
  split; [destruct hex; reflexivity|]. intros H. destruct hex; simpl value; unfold xdigits_value, digits_value; rewrite fold_left_app; simpl fold_left.
  - do 16 (destruct i as [|i]; [destruct H as [H|H]; injection H as <-; (split; [reflexivity|]); f_equal|]). destruct H as [H|H]; destruct i; discriminate.
  - do 10 (destruct i as [|i]; [destruct H as [H|H]; injection H as <-; (split; [reflexivity|]); f_equal|]). destruct H as [H|H]; destruct i; discriminate.
Qed.
Theorem C25_digits hex c : digit hex c = true <-> In c (s2b (if hex then "0123456789abcdefABCDEF" else "0123456789")).
Proof. destruct hex, c as [[] [] [] [] [] [] [] []]; (split; [intros H; try discriminate H; simpl; tauto|]); intros H; try reflexivity; simpl in H; exfalso; repeat destruct H as [H|H]; try discriminate; auto. Qed.

(** Everything that [read] accepts is derived by the grammar of ReaderProofs.v,
    in which every list is [open items closed] with brackets of the same kind at
    every depth, and everything that the grammar derives is accepted, with that
    meaning (for inputs without the byte 0xFF, which the reader takes for the
    end of the input). *)
Theorem C25_grammar s o k :
  ~ In xFF s -> (reads s o k <-> exists t, s = t ++ k /\ text o t k).
Proof.
  intros N. split.
  - intros [f R]. apply (proj1 (sound f) _ _ _ N R).
  - intros [t [-> T]]. apply (proj1 complete _ _ _ T).
Qed.

(** A sequence of data, in front of [k]. *)
Inductive sequence : list byte -> list byte -> Prop :=
| SqNil k : sequence [] k
| SqCons o t1 t2 k : text o t1 (t2 ++ k) -> t2 ++ k <> [] -> sequence t2 k ->
    (forall w e r, t2 ++ k = w ++ "."%char :: e :: r -> ws w ("."%char :: e :: r) -> is_space e = false) -> sequence (t1 ++ t2) k.
Lemma pair_sequence op t k e : sequence t k -> (exists f, read_pair f op k = RErr e) -> exists f, read_pair f op (t ++ k) = RErr e.
Proof.
  induction 1 as [|o t1 t2 k T NE _ IH ND]; intros [f R]; [exists f; exact R|].
  destruct (IH (ex_intro _ f R)) as [f2 R2]. destruct (proj1 complete _ _ _ T) as [f1 R1].
  exists (S (Nat.max f1 f2)). cbn [read_pair]. rewrite <- app_assoc.
  destruct (text_starts _ _ _ T NE) as [w [t3 [E3 [W [c [q [-> [H1 [H2 [H3 H4]]]]]]]]]].
  subst t1. rewrite <- app_assoc in R1 |- *. rewrite (read_ws _ _ _ W) in R1. cbn [app] in R1, W |- *. rewrite (skip_at _ _ _ W H1 H2).
  rewrite (proj2 (beq_ne _ _) H4), H3. rewrite (mono_object _ _ _ _ R1) by (discriminate || lia).
  destruct (skip_spec (t2 ++ k)) as [v [Ev [V SO]]].
  destruct f2 as [|f2]; [discriminate|]. assert (R2' := R2). cbn [read_pair] in R2'.
  destruct (skip false (t2 ++ k)) as [|d r'] eqn:SK; [exact R2'|].
  destruct (beq d xFF) eqn:XF; [exact R2'|]. clear R2'.
  assert (ND' : beq d "." && match r' with e :: _ => is_space e | [] => false end = false).
  { destruct (beq d ".") eqn:DD; auto. simpl. apply beq_eq in DD. subst d. destruct r' as [|x r']; auto. apply (ND v x r'); auto. }
  rewrite ND'. rewrite Ev, (pair_ws _ _ _ _ V) in R2. rewrite (mono_pair _ _ _ _ _ R2) by (discriminate || lia). reflexivity.
Qed.
Lemma open_pair op s x : is_open op = true -> (exists f, read_pair f op s = x) -> exists f, read_object f (op :: s) = x.
Proof.
  intros O [f R]. exists (S f). rewrite <- R. unfold is_open in O. rewrite !orb_true_iff in O.
  destruct O as [[O|O]|O]; apply beq_eq in O; subst; reflexivity.
Qed.
(** After any number of data, a closing bracket of another kind is an error that
    names both brackets, and so is the end of the input. *)
Theorem C25_mismatch_is_an_error op t w closed k :
  is_open op = true -> is_close closed = true -> matching op closed = false ->
  sequence t (w ++ closed :: k) -> blank w -> read_fails (op :: t ++ w ++ closed :: k) (EParen closed op).
Proof.
  intros O C M S B. apply open_pair; auto. apply pair_sequence; auto. exists 1%nat. cbn [read_pair].
  assert (NC : is_space closed = false /\ closed <> ";"%char /\ beq closed xFF = false).
  { unfold is_close in C. rewrite !orb_true_iff in C. destruct C as [[C|C]|C]; apply beq_eq in C; subst; repeat split; discriminate. }
  destruct NC as [N1 [N2 N3]]. rewrite (skip_at w closed k (blank_ws _ _ B) N1 N2). rewrite N3, C, M. reflexivity.
Qed.
Theorem C25_end_of_input_is_an_error op t w :
  is_open op = true -> sequence t w -> blank w -> read_fails (op :: t ++ w) EEof.
Proof.
  intros O S B. apply open_pair; auto. apply pair_sequence; auto. exists 1%nat. cbn [read_pair].
  assert (E := skip_ws w [] (blank_ws _ _ B)). rewrite app_nil_r in E. rewrite E. reflexivity.
Qed.
(** A closing bracket that closes nothing is an error. *)
Theorem C25_stray_bracket w closed k : blank w -> is_close closed = true -> read_fails (w ++ closed :: k) (EInput closed).
Proof.
  intros B C. apply (C24_blank_prefix w _ B). exists 1%nat. unfold is_close in C. rewrite !orb_true_iff in C.
  destruct C as [[C|C]|C]; apply beq_eq in C; subst; reflexivity.
Qed.
(** But a vector that is not closed is not reported: the reader never returns. *)
Theorem C25_unterminated_vector_refuted w : blank w -> forall f, read_object f (s2b "#(" ++ w) = RFuel.
Proof.
  intros B. assert (V : forall f acc, read_vector f acc [] = RFuel).
  { induction f as [|f IH]; intros acc; auto. cbn [read_vector]. cbv zeta. simpl skip. cbv iota. destruct f as [|f]; auto. cbn [read_object]. simpl. apply IH. }
  intros f. destruct f as [|f]; auto. cbn [read_object]. simpl.
  assert (E := vector_ws f [] w [] (blank_ws _ _ B)). rewrite app_nil_r in E. rewrite E. apply V.
Qed.
(** A quote with no datum is not reported either: a null pointer is put in the list. *)
Theorem C25_quote_at_end_refuted : reads (s2b "'") (quote_form "quote" no_object) [].
Proof. exists 2%nat. reflexivity. Qed.

Example C25_ex : reads (s2b "[a (b . c) {}] x") (OPair (OSym (s2b "a")) (OPair (OPair (OSym (s2b "b")) (OSym (s2b "c"))) (OPair ONull ONull))) (s2b " x").
Proof. exists 19%nat. reflexivity. Qed.
Lemma sym_a k : ends k -> text (OSym (s2b "a")) (s2b "a") k.
Proof.
  intros E. apply (TCore [] _ (s2b "a")); [apply WsNil|]. apply (CSym (s2b "a")); auto.
  - repeat constructor.
  - repeat split; try discriminate; intros [H|H]; discriminate.
  - reflexivity.
Qed.
Example C25_mismatch_ex : read_fails (s2b "(a a]") (EParen "]"%char "("%char).
Proof.
  apply (C25_mismatch_is_an_error "("%char (s2b "a a") [] "]"%char []); try reflexivity; [|apply BlNil].
  apply (SqCons (OSym (s2b "a")) (s2b "a") (s2b " a")); [apply sym_a; reflexivity|discriminate| |].
  - apply (SqCons (OSym (s2b "a")) (s2b " a") []); [|discriminate|apply SqNil|].
    + apply (TCore (s2b " ") _ (s2b "a")); [apply WsSpace; [reflexivity|apply WsNil]|]. assert (T := sym_a (s2b "]") eq_refl).
      apply (CSym (s2b "a")); [repeat constructor|repeat split; try discriminate; intros [H|H]; discriminate|reflexivity|reflexivity].
    + intros w e r E _. simpl in E. destruct w as [|x w]; [discriminate|]. injection E as _ E. destruct w; discriminate.
  - intros w e r E W. simpl in E. destruct w as [|x w]; [discriminate|]. injection E as _ E. destruct w as [|y w]; [discriminate|]. injection E as _ E.
    destruct w as [|z w]; [discriminate|]. injection E as _ E. destruct w; discriminate.
Qed.
Print Assumptions C24_blank_prefix.
Print Assumptions C24_blank_in_list.
Print Assumptions C24_blank_in_vector.
Print Assumptions C24_last_comment.
Print Assumptions C24_block_comment.
Print Assumptions C24_datum_comment.
Print Assumptions C24_comment_before_bracket_refuted.
Print Assumptions C25_list_ends_with_matching_bracket.
Print Assumptions C25_vector_ends_with_bracket.
Print Assumptions C25_grammar.
Print Assumptions C25_mismatch_is_an_error.
Print Assumptions C25_end_of_input_is_an_error.
Print Assumptions C25_stray_bracket.
Print Assumptions C25_unterminated_vector_refuted.
Print Assumptions C25_quote_at_end_refuted.
Print Assumptions C25_digit_values.
Print Assumptions C25_digits.
