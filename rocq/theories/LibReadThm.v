(** C53: the reader of the library (src/library/read.min), and how it agrees with
    the built-in reader (src/core/c/read.c). *)
From Coq Require Import ZArith NArith Bool Ascii String List Lia.
From Verif Require Import Base Decimal Reader ReaderProofs ReaderThm WriteThm LibRead LibReadProofs.
Import ListNotations.
Local Open Scope list_scope.

(** ** Specification *)

(** Names that both readers read. *)
Definition common_name (n : list byte) : Prop :=
  Forall (fun c => is_delim c = false /\ c <> xFF /\ c <> NUL) n /\ (lenN n < 4096)%N /\
  match n with
  | [] => False
  | c :: q => is_digit c = false /\ c <> "'"%char /\ c <> "#"%char /\
              (c = "+"%char \/ c = "-"%char -> match q with d :: _ => is_digit d = false | [] => True end) /\
              (c = "."%char -> q <> [])
  end.
(** The data that [write] prints and that the library reads back. *)
Inductive common : obj -> Prop :=
| CoNull : common ONull
| CoTrue : common OTrue
| CoFalse : common OFalse
| CoSym n : common_name n -> common (OSym n)
| CoFix z : (- 2 ^ 63 < z < 2 ^ 63)%Z -> common (OFix z)
| CoChar c : ~ In c (map ascii_of_N [0; 7; 8; 9; 11; 12; 13; 27; 127; 255]%N) -> common (OChar c)
| CoStr b : Forall (fun c => ~ In c (map ascii_of_N [0; 7; 8; 9; 11; 12; 13; 255]%N)) b -> (lenN b < 4096)%N -> common (OStr b)
| CoPair a d : common a -> common d -> common (OPair a d)
| CoVec x l : (forall y, In y (x :: l) -> common y) -> common (OVec (x :: l)).

(** ** Lemmas on the printer *)
Lemma ctext_core cn o t k : ccore cn o t k -> ctext cn o t k.
Proof. intros C. apply (CtCore cn []); auto. constructor. Qed.
Lemma ctext_space cn o t k : ctext cn o t k -> ctext cn o (" "%char :: t) k.
Proof.
  intros T. destruct T as [w o t k W C|w b o t k W B T|w d t1 o t k W T1 T].
  - apply (CtCore cn (" "%char :: w)); auto. constructor; auto.
  - apply (CtBlock cn (" "%char :: w)); auto. constructor; auto.
  - apply (CtDatum cn (" "%char :: w) d); auto. constructor; auto.
Qed.
Lemma citems_space cn op o t k : citems cn op o t k -> citems cn op o (" "%char :: t) k.
Proof.
  intros T. destruct T as [op w c k W M|op a t1 b t2 k T C N|op a t1 w e b t2 v c k T W L T2 V M X].
  - apply (CiEnd cn op (" "%char :: w)); auto. constructor; auto.
  - apply (CiCons cn op a (" "%char :: t1)); auto. apply ctext_space; auto.
  - apply (CiDot cn op a (" "%char :: t1)); auto. apply ctext_space; auto.
Qed.
Definition lhead (t : list byte) : Prop :=
  exists c q, t = c :: q /\ lspace c = false /\ c <> ";"%char /\ (c = "."%char -> exists e q', q = e :: q' /\ csymc e = true /\ e <> NUL).
Lemma lhead_lit c q : lspace c = false -> c <> ";"%char -> c <> "."%char -> lhead (c :: q).
Proof. intros H1 H2 H3. exists c, q. repeat split; auto. intros ->. contradiction. Qed.
Lemma lhead_app t r : lhead t -> lhead (t ++ r).
Proof. intros (c & q & -> & H1 & H2 & H3). exists c, (q ++ r). repeat split; auto. intros E. destruct (H3 E) as (e & q' & -> & K). exists e, (q' ++ r). auto. Qed.
Lemma lhead_no_dot t : lhead t -> no_dot t.
Proof.
  intros (c & q & -> & H1 & H2 & H3) w r W E.
  destruct (lblank_unique [] LbNil w c q "."%char r W E H1 H2) as (_ & -> & ->); try reflexivity; try discriminate; auto.
Qed.
Lemma space_no_dot t : no_dot t -> no_dot (" "%char :: t).
Proof.
  intros N w r W E. destruct W as [|w W|w W|l w NL W]; simpl in E; try discriminate E. injection E as E. apply (N w r W E).
Qed.
Definition lgood (o : obj) : Prop := (forall k, ldelimited k -> ctext true o (write o) k) /\ lhead (write o).
Fixpoint lgoods (o : obj) : Prop :=
  match o with ONull => True | OPair a d => lgood a /\ lgoods d | x => lgood x end.
Lemma ldot_items a x k : lgood a -> lgood x -> match x with OPair _ _ | ONull => False | _ => True end ->
  citems true "(" (OPair a x) (write a ++ (s2b " . " ++ write x) ++ [")"%char]) k.
Proof.
  intros [Ta _] [Tx _] SH.
  assert (I : citems true "(" (OPair a x) (write a ++ s2b " " ++ "."%char :: (" "%char :: write x) ++ [] ++ [")"%char]) k).
  { apply CiDot; auto; try (repeat constructor; fail).
    - apply Ta. reflexivity.
    - apply ctext_space, Tx. reflexivity. }
  simpl in I |- *. exact I.
Qed.
Lemma lpair_items d : lgoods d -> forall a k, lgood a -> citems true "(" (OPair a d) (write a ++ tail_text write d ++ [")"%char]) k.
Proof.
  induction d as [| | | | | | | | | |a' _ d' IH| | | | | | |]; intros G a k Ga; try (apply ldot_items; auto; exact Logic.I).
  - apply CiCons.
    + apply (proj1 Ga). reflexivity.
    + apply (CiEnd true "("%char []); [constructor|reflexivity].
    + apply (lhead_no_dot (")"%char :: k)). apply lhead_lit; [reflexivity|discriminate|discriminate].
  - destruct G as [Ga' G]. simpl. apply CiCons.
    + apply (proj1 Ga). reflexivity.
    + apply citems_space. rewrite <- app_assoc. apply IH; auto.
    + apply space_no_dot, lhead_no_dot. repeat apply lhead_app. apply Ga'.
Qed.
Lemma lvec_elems l : Forall lgood l -> forall k, lends k -> celems true l (more_text write l ++ [")"%char]) k.
Proof.
  induction 1 as [|x l G _ IH]; intros k E.
  - apply (CeNil true [] k); auto. constructor.
  - unfold more_text. cbn [flat_map]. rewrite <- app_assoc. apply CeCons; [|apply IH; auto]. apply ctext_space. apply G.
    rewrite <- app_assoc. destruct l; simpl; auto.
Qed.
Lemma common_name_readable n : common_name n -> readable_name n.
Proof.
  intros (F & L & H). split; auto. split; auto. destruct n as [|c q]; auto. intuition.
Qed.
Lemma lname_text n k : common_name n -> ldelimited k -> ccore true (OSym n) n k.
Proof.
  intros R E. assert (C := name_cstr n (common_name_readable _ R)). rewrite <- C at 1. destruct R as (F & L & H). apply CcSym; auto using ldelimited_ends.
  - eapply Forall_impl; [|exact F]. intros c [K1 [K2 _]]. unfold csymc, is_symc. rewrite K1. apply beq_ne in K2. rewrite K2. reflexivity.
  - destruct n as [|c q]; auto. simpl. tauto.
Qed.
Lemma lname_head n : common_name n -> lhead n.
Proof.
  intros (F & _ & H). destruct n as [|c q]; [destruct H|]. inversion F as [|? ? [D _] F']; subst. exists c, q. split; auto.
  split; [destruct (lspace c) eqn:X; auto; apply lspace_space, space_delim in X; congruence|]. split; [intros ->; discriminate|].
  intros Q. destruct H as (_ & _ & _ & _ & H). specialize (H Q). destruct q as [|e q]; [contradiction|].
  inversion F' as [|? ? [D' [D2 D3]] _]; subst. exists e, q. split; auto. split; auto. unfold csymc, is_symc. rewrite D'. apply beq_ne in D2. rewrite D2. reflexivity.
Qed.
Lemma llong_text z k : (- 2 ^ 63 < z < 2 ^ 63)%Z -> ldelimited k -> ccore true (OFix z) (print_long z) k.
Proof.
  intros B E. unfold print_long. destruct (Z.ltb_spec z 0) as [N|N].
  - destruct (print_nat_spec (Z.to_N (- z))) as [V [D [NE _]]]. assert (L := print_nat_length (Z.to_N (- z)) ltac:(lia)).
    assert (C : ccore true (OFix (-1 * Z.of_N (value false (print_nat (Z.to_N (- z)))))) (prefix false ++ ["-"%char] ++ print_nat (Z.to_N (- z))) k).
    { apply CcNum; auto; [apply SgMinus| |]; [change (value false) with digits_value; rewrite V; lia|]. unfold lenN. lia. }
    simpl in C. rewrite V in C. replace z with (Z.opp (Z.of_N (Z.to_N (- z)))) at 1 by lia.
    destruct (Z.of_N (Z.to_N (- z))); exact C.
  - destruct (print_nat_spec (Z.to_N z)) as [V [D [NE _]]]. assert (L := print_nat_length (Z.to_N z) ltac:(lia)).
    assert (C : ccore true (OFix (1 * Z.of_N (value false (print_nat (Z.to_N z))))) (prefix false ++ [] ++ print_nat (Z.to_N z)) k).
    { apply CcNum; auto; [apply SgNone| |]; [change (value false) with digits_value; rewrite V; lia|]. unfold lenN. lia. }
    change (value false (print_nat (Z.to_N z))) with (digits_value (print_nat (Z.to_N z))) in C. rewrite V in C.
    rewrite Z.mul_1_l in C. rewrite Z2N.id in C by lia. exact C.
Qed.
Lemma llong_head z : lhead (print_long z).
Proof.
  unfold print_long. destruct (z <? 0)%Z; [apply lhead_lit; [reflexivity|discriminate|discriminate]|].
  destruct (print_nat_spec (Z.to_N z)) as [_ [D [NE _]]]. destruct (print_nat (Z.to_N z)) as [|c q]; [contradiction|].
  inversion D as [|? ? DD _]; subst. apply lhead_lit; [|intros ->; discriminate|intros ->; discriminate].
  destruct (symc_start c) as (S & _); auto. apply (digit_symc false). exact DD.
Qed.
Lemma not_listed c l x : ~ In c (map ascii_of_N l) -> In x (map ascii_of_N l) -> beq c x = false.
Proof. intros N I. apply beq_ne. intros ->. contradiction. Qed.
Lemma lchar_text c k : ~ In c (map ascii_of_N [0; 7; 8; 9; 11; 12; 13; 27; 127; 255]%N) -> lends k -> ccore true (OChar c) (s2b "#\" ++ char_text c) k.
Proof.
  intros N E. unfold char_text.
  repeat match goal with |- context [if beq c ?x then _ else _] =>
    rewrite (not_listed c _ x N ltac:(vm_compute; tauto)) end.
  destruct (beq c "010") eqn:B; [apply beq_eq in B; subst; apply CcNewline; auto|].
  repeat match goal with |- context [if beq c ?x then _ else _] =>
    rewrite (not_listed c _ x N ltac:(vm_compute; tauto)) end.
  destruct (beq c " ") eqn:B2; [apply beq_eq in B2; subst; apply CcSpace; auto|].
  repeat match goal with |- context [if beq c ?x then _ else _] =>
    rewrite (not_listed c _ x N ltac:(vm_compute; tauto)) end.
  apply CcChar; auto. intros ->. apply N. vm_compute. tauto.
Qed.
Lemma lesc_chars b : Forall (fun c => ~ In c (map ascii_of_N [0; 7; 8; 9; 11; 12; 13; 255]%N)) b -> cchars b (flat_map esc_text b).
Proof.
  induction 1 as [|c b N _ IH]; [constructor|]. cbn [flat_map]. unfold esc_text at 1.
  assert (F : forall x, In x (map ascii_of_N [0; 7; 8; 9; 11; 12; 13; 255]%N) -> beq c x = false) by (intros; eapply not_listed; eauto).
  rewrite (F "007"%char), (F "008"%char), (F "012"%char), (F "013"%char), (F "009"%char), (F "011"%char) by (vm_compute; tauto).
  destruct (beq c "010") eqn:B1; [apply beq_eq in B1; subst; apply (CcEsc "n"%char); [simpl; auto|exact IH]|].
  destruct (beq c """") eqn:B2; [apply beq_eq in B2; subst; apply (CcEsc """"%char); [simpl; auto|exact IH]|].
  destruct (beq c "\") eqn:B3; [apply beq_eq in B3; subst; apply (CcEsc "\"%char); [simpl; auto|exact IH]|].
  apply beq_ne in B2, B3. apply CcPlain; auto; intros ->; apply N; vm_compute; tauto.
Qed.
Lemma common_good o : common o -> lgood o /\ lgoods o.
Proof.
  assert (HASH : forall t, lhead ("#"%char :: t)) by (intros t; apply lhead_lit; [reflexivity|discriminate|discriminate]).
  assert (GC : forall o, (forall k, ldelimited k -> ccore true o (write o) k) -> lhead (write o) -> lgood o).
  { intros x C H. split; auto. intros k E. apply ctext_core. auto. }
  induction o using obj_ind_strong; intros R; inversion R; subst;
    try match goal with |- lgood ?x /\ lgoods ?x => cut (lgood x); [intros G; exact (conj G G)|] end.
  - split; [|exact Logic.I]. apply GC; [|apply lhead_lit; [reflexivity|discriminate|discriminate]].
    intros k E. apply (CcList true "("%char ONull (s2b ")")); [reflexivity|]. apply (CiEnd true "("%char []); [constructor|reflexivity].
  - apply GC; [intros; apply CcTrue|apply HASH].
  - apply GC; [intros; apply CcFalse|apply HASH].
  - assert (C := name_cstr n (common_name_readable _ H0)). apply GC; cbn [write]; rewrite C; [intros; apply lname_text; auto|apply lname_head; auto].
  - apply GC; cbn [write].
    + intros k E. assert (CH := lesc_chars _ H0). rewrite (cchars_nul _ _ CH). apply CcStr; auto using ldelimited_ends.
    + apply lhead_lit; [reflexivity|discriminate|discriminate].
  - apply GC; [intros; apply llong_text; auto|apply llong_head].
  - apply GC; [|apply HASH]. intros k E. apply lchar_text; auto using ldelimited_ends.
  - destruct (IHo1 ltac:(assumption)) as [G1 _]. destruct (IHo2 ltac:(assumption)) as [_ G2]. split; [|simpl; auto].
    apply GC; rewrite write_tail; [|apply lhead_lit; [reflexivity|discriminate|discriminate]].
    intros k E. apply CcList; [reflexivity|]. apply lpair_items; auto.
  - match goal with K : forall y, In y (?x :: ?l) -> common y |- _ => rename K into RD; assert (F : Forall lgood (x :: l)) end.
    { rewrite Forall_forall in *. intros y I. apply H; auto. }
    apply GC; rewrite write_vec; [|apply HASH]. intros k E. match goal with |- ccore _ (OVec (?x :: ?l)) _ _ => apply (CcVec true (x :: l)) end.
    inversion F as [|? ? G F']; subst. apply CeCons; [|apply lvec_elems; auto using ldelimited_ends]. apply G.
    rewrite <- app_assoc. match goal with |- ldelimited (more_text _ ?l ++ _) => destruct l; simpl; auto end.
Qed.

(** ** Theorems *)

(** Every text of the common grammar is read by both readers, up to the same
    place, and with the same meaning: the library returns a syntax object, and
    stripped of its syntax it is the datum of the built-in reader.  When no list
    follows a dot it is exactly [datum->syntax] of that datum. *)
Theorem C53_both_readers_agree cn o t k :
  ctext cn o t k ->
  reads (t ++ k) o k /\
  (exists s, lreads (t ++ k) s k /\ is_stx s /\ strip s = strip o /\ (cn = true -> s = to_stx o)) /\
  (forall s k', lreads (t ++ k) s k' -> k' = k /\ is_stx s /\ strip s = strip o).
Proof.
  intros T. destruct (proj1 (common_text cn) _ _ _ T) as [TX _]. destruct (proj1 complete _ _ _ TX) as [f R].
  destruct (proj1 (common_lib cn) _ _ _ T) as (n & s & (S1 & S2 & S3) & L).
  split; [exists f; exact R|]. split; [exists s; split; [exists n; apply L; lia|auto]|].
  intros s' k' [g E]. assert (X := lread_det n g _ _ _ (L n (le_n _)) E ltac:(discriminate) ltac:(discriminate)).
  injection X as <- <-. auto.
Qed.

(** What [write] prints, the library reads back as syntax of the same datum, if a
    delimiter follows; the built-in reader reads the same datum. *)
Theorem C53_write_read_partial d k :
  common d -> ldelimited k -> lreads (write d ++ k) (to_stx d) k /\ reads (write d ++ k) d k.
Proof.
  intros C K. assert (T := proj1 (proj1 (common_good d C)) k K).
  destruct (C53_both_readers_agree _ _ _ _ T) as (R & (s & L & _ & _ & E) & _). rewrite (E eq_refl) in L. auto.
Qed.
(** [datum->syntax] adds syntax and changes nothing else. *)
Theorem C53_syntax_keeps_the_datum o : is_stx (to_stx o) /\ strip (to_stx o) = strip o.
Proof. split; [apply is_stx_to_stx|apply strip_to_stx]. Qed.

(** Reading is a function of the text, and reads a prefix of it; blanks in front
    of a datum do not matter. *)
Theorem C53_read_deterministic s o k o' k' : lreads s o k -> lreads s o' k' -> o = o' /\ k = k'.
Proof.
  intros [f E] [g E']. assert (X := lread_det _ _ _ _ _ E E' ltac:(discriminate) ltac:(discriminate)). injection X as <- <-. auto.
Qed.
Theorem C53_outcomes_exclusive s : ~ (exists o k e, lreads s o k /\ lread_fails s e) /\ ~ (exists o k, lreads s o k /\ lread_hangs s).
Proof.
  split.
  - intros (o & k & e & [f E] & [g E']). assert (X := lread_det _ _ _ _ _ E E' ltac:(discriminate) ltac:(discriminate)). discriminate.
  - intros (o & k & [f E] & H). rewrite H in E. discriminate.
Qed.
Theorem C53_read_consumes_a_prefix s o k : lreads s o k -> exists t, s = t ++ k.
Proof. intros [f E]. apply (proj1 (lsuffix f) _ _ _ E). Qed.
Theorem C53_blanks_ignored w s o k : lblank w -> (lreads (w ++ s) o k <-> lreads s o k).
Proof. intros W. unfold lreads. split; intros [f E]; exists f; rewrite lread_blank in *; auto. Qed.

(** Lists are closed by the bracket that matches the one that opened them: on every
    text. *)
Theorem C53_brackets_match open s o k :
  is_open open = true -> lreads (open :: s) o k ->
  exists t closed, s = t ++ closed :: k /\ matching open closed = true.
Proof.
  intros O [f E]. destruct f as [|f]; [discriminate|]. cbn [lread] in E.
  destruct (open_not_special _ O) as (H1 & H2 & H3 & H4 & H5 & H6). rewrite lskip_at in E by auto. rewrite H1, H2, H3, H4, O in E.
  apply lbind_ok in E. destruct E as (p & k1 & R & E). injection E as _ <-. apply (proj1 (proj2 (lsuffix f)) _ _ _ _ R).
Qed.

(** *** Where the readers differ, and where the library's reader is wrong *)

(** A number at the very end of the input is an error in the library: the loop of
    read-number asks for the code of the end-of-file object.  The built-in reader
    reads the number. *)
Theorem C53_number_at_end_refuted c ds :
  Forall (fun c => is_digit c = true) (c :: ds) -> (digits_value (c :: ds) < 2 ^ 63)%N -> (lenN ds < 4094)%N ->
  lread_fails (c :: ds) LNotChar /\ reads (c :: ds) (OFix (Z.of_N (digits_value (c :: ds)))) [].
Proof.
  intros F V L. assert (DD : is_digit c = true) by (inversion F; auto). split.
  - exists 1%nat. cbn [lread]. assert (Y := symc_start c (digit_symc false c DD)). rewrite lskip_at by apply Y.
    destruct (digit_sign false _ DD) as (P1 & P2 & P3). apply beq_ne in P1, P2.
    assert (NH : beq c "#" = false) by (apply beq_ne; intros ->; discriminate). rewrite NH, P1, P2, DD. cbn [orb].
    unfold lread_number, lnumber. assert (SP := span_app _ (c :: ds) [] F Logic.I). rewrite app_nil_r in SP. rewrite SP.
    destruct (N.leb_spec (2 ^ 63) (digits_value (c :: ds))); [lia|]. reflexivity.
  - assert (C : core (OFix (1 * Z.of_N (value false (c :: ds)))) (prefix false ++ [] ++ (c :: ds)) []).
    { apply CNum; auto; [apply SgNone|discriminate| |exact Logic.I]. unfold kept, lenN, buffer_size in *. simpl. simpl in L. lia. }
    destruct (proj1 (proj2 complete) _ _ _ C) as [f R]. rewrite app_nil_r in R. rewrite Z.mul_1_l in R. exists f. exact R.
Qed.
(** An unterminated block comment or vector: the library's reader does not
    return.  The built-in reader reports the end of the input. *)
Theorem C53_unterminated_comment_hangs_refuted b : Forall (fun c => c <> "|"%char /\ c <> "#"%char /\ c <> xFF) b ->
  lread_hangs (s2b "#|" ++ b) /\ read_fails (s2b "#|" ++ b) EEof.
Proof.
  intros F.
  assert (H : lblock 0 b = LFuel /\ block 0 b = RErr EEof).
  { induction F as [|c b (N1 & N2 & N3) _ [I1 I2]]; auto. simpl. apply beq_ne in N1, N2, N3. rewrite N1, N2, N3. simpl. auto. }
  destruct H as [H1 H2]. split.
  - intros [|f]; auto. hashed. rewrite H1. reflexivity.
  - exists 1%nat. cbn -[block]. rewrite H2. reflexivity.
Qed.
Lemma vector_end_hangs f : forall acc, lread_vector f acc [] = LFuel.
Proof. induction f as [|f IH]; auto. intros acc. cbn [lread_vector lskip]. destruct f as [|f]; auto. cbn [lread lskip lbind]. apply IH. Qed.
Theorem C53_unterminated_vector_hangs_refuted : lread_hangs (s2b "#(").
Proof. intros [|f]; auto. hashed. rewrite vector_end_hangs. reflexivity. Qed.

(** A quote, or a box, in front of the end of the input is a datum with the
    end-of-file object in it; after a block comment the end of the input is a
    syntax object around the end-of-file object, which [eof?] does not accept. *)
Theorem C53_eof_inside_datum_refuted :
  lreads (s2b "'") (lquote "quote" OEof) [] /\ lreads (s2b "#&") (to_stx (OBox OEof)) [] /\
  lreads (s2b "#| end |#") (OSyntax OEof OFalse) [] /\ lreads (s2b "; end") OEof [].
Proof. repeat split; exists 3%nat; reflexivity. Qed.
(** A comment in front of a closing bracket: block comments and datum comments are
    rejected by both readers; line comments are not. *)
Theorem C53_comment_before_closing_refuted :
  lread_fails (s2b "(a #| b |#)") (LInput ")"%char) /\ lread_fails (s2b "(a #;b )") (LInput ")"%char) /\
  read_fails (s2b "(a #| b |#)") (EInput ")"%char) /\ read_fails (s2b "(a #;b )") (EInput ")"%char) /\
  lreads (s2b "(a ; b" ++ "010"%char :: s2b ")") (to_stx (OPair (OSym (s2b "a")) ONull)) [].
Proof. repeat split; exists 9%nat; reflexivity. Qed.
(** Tabs, carriage returns and page breaks are blanks for the built-in reader and
    letters for the library: the same file is read differently. *)
Theorem C53_tab_is_a_letter_refuted c a k :
  In c (map ascii_of_N [9; 11; 12; 13]%N) -> Forall (fun c => is_symc c = true) a -> csymbol a -> (lenN a < 4000)%N -> ldelimited k ->
  ~ In NUL a -> a <> s2b "+" -> a <> s2b "-" ->
  reads (a ++ c :: k) (OSym a) (c :: k) /\ lreads (a ++ c :: k) (to_stx (OSym (a ++ [c]))) k.
Proof.
  intros C F Y L K N NP NM. assert (CD : is_delim c = true /\ lsymc c = true /\ c <> NUL).
  { simpl in C. repeat (destruct C as [<-|C]; [repeat split; discriminate|]). destruct C. }
  destruct CD as (CD & CL & CN). assert (CA : cstr a = a) by (apply cstr_nul_free; exact N). split.
  - assert (X : core (OSym (cstr a)) a (c :: k)).
    { apply CSym; auto; [|unfold buffer_size; lia]. destruct a as [|x q]; simpl in *; auto. intuition. }
    rewrite CA in X. destruct (proj1 (proj2 complete) _ _ _ X) as [f R]. exists f. exact R.
  - exists 1%nat. assert (FL : Forall (fun c => lsymc c = true) (a ++ [c])).
    { apply Forall_app. split; [|repeat constructor; auto]. eapply Forall_impl; [|exact F]. cbv beta. apply symc_lsymc. }
    assert (KS := lends_stops _ (ldelimited_ends _ K)).
    assert (CA' : cstr (a ++ [c]) = a ++ [c]).
    { apply cstr_nul_free. unfold nul_free. rewrite in_app_iff. simpl. intuition. }
    replace (a ++ c :: k) with ((a ++ [c]) ++ k) by (rewrite <- app_assoc; reflexivity).
    destruct a as [|x q]; [destruct Y|]. destruct Y as (Y1 & Y2 & Y3 & Y4).
    assert (CS : csymc x = true) by (inversion F; auto). destruct (symc_start _ CS) as (S1 & S2 & S3).
    cbn [app lread]. rewrite lskip_at by auto. apply beq_ne in Y3. rewrite Y3. destruct (beq x "+" || beq x "-") eqn:PM.
    + assert (PM' : x = "+"%char \/ x = "-"%char) by (rewrite orb_true_iff, !beq_eq in PM; auto).
      destruct q as [|y q]; [exfalso; destruct PM' as [->| ->]; [apply NP|apply NM]; reflexivity|]. cbn [app].
      rewrite (Y4 PM'). unfold lread_symbol. inversion FL as [|? ? _ FL']; subst. assert (E := span_app _ _ _ FL' KS). cbn [app] in E. rewrite E. cbn [lbind app]. cbn [app] in CA'.
      rewrite CA'. reflexivity.
    + rewrite Y1. assert (NQ : beq x """" = false) by (apply beq_ne; intros ->; discriminate).
      assert (NO : is_open x = false).
      { destruct (is_open x) eqn:OP; auto. unfold is_open in OP. rewrite !orb_true_iff in OP. destruct OP as [[OP|OP]|OP]; apply beq_eq in OP; subst; discriminate. }
      apply beq_ne in Y2. rewrite NQ, NO, Y2, (symc_lsymc _ CS). unfold lread_symbol. assert (E := span_app _ _ _ FL KS). cbn [app] in E, CA'. rewrite E.
      cbn [lbind app]. rewrite CA'. reflexivity.
Qed.
(** Texts that one reader accepts and the other does not, or that they read
    differently: names of characters, escapes, [#%] names, syntax quotes, digits
    in front of letters, lists after a dot. *)
Theorem C53_readers_differ_refuted :
  (reads (s2b "#\tab ") (OChar "009") (s2b " ") /\ lread_fails (s2b "#\tab ") LDelim) /\
  (reads (s2b """\t"" ") (OStr ["009"%char]) (s2b " ") /\ lread_fails (s2b """\t"" ") (LEscape (Some "t"%char))) /\
  (reads (s2b "#%car ") (OSym (s2b "#%car")) (s2b " ") /\ lread_fails (s2b "#%car ") (LSpecial (Some "%"%char))) /\
  (reads (s2b "#'a ") (quote_form "quote-syntax" (OSym (s2b "a"))) (s2b " ") /\
   lreads (s2b "#'a ") (to_stx (quote_form "syntax" (OSym (s2b "a")))) (s2b " ")) /\
  (reads (s2b "12a ") (OSym (s2b "112a")) (s2b " ") /\ lreads (s2b "12a ") (to_stx (OSym (s2b "12a"))) (s2b " ")) /\
  (reads (s2b "-1a ") (OSym (s2b "-1a")) (s2b " ") /\ lread_fails (s2b "-1a ") LNotNumber) /\
  (reads (s2b "+1a ") (OSym (s2b "1a")) (s2b " ") /\ lreads (s2b "+1a ") (to_stx (OSym (s2b "1a"))) (s2b " ")) /\
  (let l := OPair (OSym (s2b "a")) (OPair (OSym (s2b "b")) ONull) in
   reads (s2b "(a . (b))") l [] /\ ~ lreads (s2b "(a . (b))") (to_stx l) []).
Proof.
  cbv zeta. repeat match goal with |- _ /\ _ => split end.
  all: try (exists 9%nat; reflexivity).
  intros [f E]. assert (X : lread 9 (s2b "(a . (b))") <> LFuel) by (vm_compute; discriminate).
  assert (E9 := lread_det 9 f _ _ _ eq_refl E X ltac:(discriminate)). vm_compute in E9. discriminate.
Qed.

(** ** Examples *)
Example ex_common : common (OPair (OSym (s2b "a")) (OPair (OVec [OFix (-12); OStr (s2b "x""y\")]) (OChar " "))).
Proof.
  apply CoPair; [|apply CoPair].
  - apply CoSym. split; [repeat constructor; discriminate|]. split; [reflexivity|]. repeat split; discriminate || (intros [K|K]; discriminate K).
  - apply CoVec. intros y Hy. simpl in Hy. destruct Hy as [<-|[<-|[]]].
    + apply CoFix. lia.
    + apply CoStr; [|reflexivity]. repeat constructor; vm_compute; intuition discriminate.
  - apply CoChar. vm_compute. intuition discriminate.
Qed.
Example ex_written : write (OPair (OSym (s2b "a")) (OPair (OVec [OFix (-12); OStr (s2b "x""y\")]) (OChar " "))) = s2b "(a #(-12 ""x\""y\\"") . #\space)".
Proof. reflexivity. Qed.
Lemma ex_letter c k : csymc c = true -> is_digit c = false -> c <> "'"%char -> c <> "#"%char -> c <> "+"%char -> c <> "-"%char -> c <> NUL -> lends k ->
  ctext false (OSym [c]) [c] k.
Proof.
  intros H1 H2 H3 H4 H5 H6 H7 K. assert (C : cstr [c] = [c]) by (apply cstr_nul_free; intros [E|[]]; congruence).
  rewrite <- C at 1. apply ctext_core, CcSym; auto; [repeat split; auto|reflexivity|]. intros [E|E]; vm_compute in E; congruence.
Qed.
(** Comments of all kinds, a quote, and a list after a dot. *)
Example ex_text : ctext false (OPair (quote_form "quote" (OSym (s2b "a"))) (OPair (OSym (s2b "b")) ONull))
  (s2b "#| x #| y |# |# #;z ('a . [b])") [].
Proof.
  apply (CtBlock false [] (s2b " x #| y |# ")); [constructor| |].
  { repeat first [apply (CbNest (s2b " y ") (s2b " ")) | apply CbNil | apply CbChar; try discriminate]. }
  apply (CtDatum false (s2b " ") (OSym (s2b "z")) (s2b "z")); [repeat constructor| |].
  { apply ex_letter; reflexivity || discriminate. }
  apply (CtCore false (s2b " ")); [repeat constructor|]. apply (CcList false "("%char); [reflexivity|].
  apply (CiDot false "("%char _ (s2b "'a") (s2b " ") " "%char _ (s2b "[b]") [] ")"%char); try (repeat constructor; fail); try discriminate.
  - apply ctext_core. apply (CcQuote false _ (s2b "a")). apply ex_letter; reflexivity || discriminate.
  - apply ctext_space, ctext_core. apply (CcList false "["%char); [reflexivity|].
    apply (CiCons false "["%char _ (s2b "b") ONull (s2b "]")).
    + apply ex_letter; reflexivity || discriminate.
    + apply (CiEnd false "["%char []); [constructor|reflexivity].
    + apply lhead_no_dot, lhead_lit; reflexivity || discriminate.
Qed.
Example ex_lib_reads : exists s, lreads (s2b "#| x #| y |# |# #;z ('a . [b])") s [] /\
  strip s = OPair (quote_form "quote" (OSym (s2b "a"))) (OPair (OSym (s2b "b")) ONull).
Proof. eexists. split; [exists 12%nat; vm_compute; reflexivity|reflexivity]. Qed.
Example ex_tab : lreads ("a"%char :: "009"%char :: s2b "(b)") (to_stx (OSym ["a"%char; "009"%char])) (s2b "(b)").
Proof. exists 1%nat. reflexivity. Qed.

Print Assumptions C53_both_readers_agree.
Print Assumptions C53_write_read_partial.
Print Assumptions C53_syntax_keeps_the_datum.
Print Assumptions C53_read_deterministic.
Print Assumptions C53_outcomes_exclusive.
Print Assumptions C53_read_consumes_a_prefix.
Print Assumptions C53_blanks_ignored.
Print Assumptions C53_brackets_match.
Print Assumptions C53_number_at_end_refuted.
Print Assumptions C53_unterminated_comment_hangs_refuted.
Print Assumptions C53_unterminated_vector_hangs_refuted.
Print Assumptions C53_eof_inside_datum_refuted.
Print Assumptions C53_comment_before_closing_refuted.
Print Assumptions C53_tab_is_a_letter_refuted.
Print Assumptions C53_readers_differ_refuted.
