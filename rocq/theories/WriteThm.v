(** C23: what the printers print, the reader reads back. *)
From Coq Require Import ZArith NArith Bool Ascii String List Lia.
From Verif Require Import Base Decimal Reader ReaderProofs ReaderThm.
Import ListNotations.
Local Open Scope list_scope.

(** ** Specification *)

(** Names that can be read: not empty, no delimiter and no 0xFF, not like a
    number, not a lone dot, and starting with a number sign only in front of a
    percent sign. *)
Definition readable_name (n : list byte) : Prop :=
  Forall (fun c => is_delim c = false /\ c <> xFF /\ c <> NUL) n /\ (lenN n < 4096)%N /\
  match n with
  | [] => False
  | c :: q => is_digit c = false /\ c <> "'"%char /\ (c = "#"%char -> exists r, q = "%"%char :: r) /\
              (c = "+"%char \/ c = "-"%char -> match q with d :: _ => is_digit d = false | [] => True end) /\
              (c = "."%char -> q <> [])
  end.
(** The data that survive [write] and [read].  [str]: which strings do;
    [boxes], [evec]: whether boxes and the empty vector do. *)
Inductive readable (str : list byte -> Prop) (boxes evec : bool) : obj -> Prop :=
| RdNull : readable str boxes evec ONull
| RdTrue : readable str boxes evec OTrue
| RdFalse : readable str boxes evec OFalse
| RdSym n : readable_name n -> readable str boxes evec (OSym n)
| RdFix z : (- 2 ^ 63 < z < 2 ^ 63)%Z -> readable str boxes evec (OFix z)
| RdChar c : c <> xFF -> readable str boxes evec (OChar c)
| RdStr b : str b -> (lenN b < 4096)%N -> readable str boxes evec (OStr b)
| RdPair a d : readable str boxes evec a -> readable str boxes evec d -> readable str boxes evec (OPair a d)
| RdVec x l : (forall y, In y (x :: l) -> readable str boxes evec y) -> readable str boxes evec (OVec (x :: l))
| RdEmpty : evec = true -> readable str boxes evec OEmptyVec
| RdBox o : boxes = true -> readable str boxes evec o -> readable str boxes evec (OBox o).

(** Strings that survive the prelude's [write]: no NUL, alarm, backspace, vertical
    tab, page, return and 0xFF. *)
Definition write_string (b : list byte) : Prop :=
  Forall (fun c => ~ In c [NUL; "007"; "008"; "011"; "012"; "013"; xFF]%char) b.
(** Strings that survive the C printer: no NUL, double quote, backslash and 0xFF. *)
Definition c_string (b : list byte) : Prop :=
  Forall (fun c => ~ In c [NUL; """"; "\"; xFF]%char) b.

(** ** Lemmas *)
Lemma dec_loop_length f : forall n acc, (List.length (dec_loop f n acc) <= f + List.length acc)%nat.
Proof.
  induction f as [|f IH]; intros n acc; simpl; [lia|]. destruct (n <? 10)%N; simpl; [lia|].
  etransitivity; [apply IH|]. simpl. lia.
Qed.
Lemma print_nat_length n : (n < 2 ^ 63)%N -> (List.length (print_nat n) <= 64)%nat.
Proof.
  intros H. unfold print_nat. etransitivity; [apply dec_loop_length|]. simpl List.length.
  assert (K := size_nat_mono_lt n 63 H). lia.
Qed.
Lemma long_text z k : (- 2 ^ 63 < z < 2 ^ 63)%Z -> ends k -> core (OFix z) (print_long z) k.
Proof.
  intros B E. unfold print_long. destruct (Z.ltb_spec z 0) as [N|N].
  - destruct (print_nat_spec (Z.to_N (- z))) as [V [D [NE _]]]. assert (L := print_nat_length (Z.to_N (- z)) ltac:(lia)).
    assert (C : core (OFix (-1 * Z.of_N (value false (print_nat (Z.to_N (- z)))))) (prefix false ++ ["-"%char] ++ print_nat (Z.to_N (- z))) k).
    { apply CNum; auto; [apply SgMinus| |]; simpl; [rewrite V; lia|]. unfold lenN, buffer_size. simpl. lia. }
    simpl in C. rewrite V in C. replace z with (Z.opp (Z.of_N (Z.to_N (- z)))) at 1 by lia.
    destruct (Z.of_N (Z.to_N (- z))); exact C.
  - destruct (print_nat_spec (Z.to_N z)) as [V [D [NE _]]]. assert (L := print_nat_length (Z.to_N z) ltac:(lia)).
    assert (C : core (OFix (1 * Z.of_N (value false (print_nat (Z.to_N z))))) (prefix false ++ [] ++ print_nat (Z.to_N z)) k).
    { apply CNum; auto; [apply SgNone| |]; simpl; [rewrite V; lia|]. unfold lenN, buffer_size. rewrite app_length.
      destruct (print_nat (Z.to_N z)); simpl in *; lia. }
    change (value false (print_nat (Z.to_N z))) with (digits_value (print_nat (Z.to_N z))) in C. rewrite V in C.
    rewrite Z.mul_1_l in C. rewrite Z2N.id in C by lia. exact C.
Qed.
Lemma char_read c k : c <> xFF -> ends k -> core (OChar c) (s2b "#\" ++ char_text c) k.
Proof.
  intros C E. unfold char_text.
  repeat match goal with
  | |- context [if beq c ?x then _ else _] =>
      let B := fresh in destruct (beq c x) eqn:B;
      [apply beq_eq in B; subst c;
       match goal with |- core _ (_ ++ s2b ?s) _ => let r := eval compute in (s2b s) in
         match r with ?a :: ?n => apply (CNamed a n); [simpl; auto 20|exact E] end end|]
  end.
  apply CChar; auto.
Qed.
Lemma esc_chars b : write_string b -> chars b (flat_map esc_text b).
Proof.
  induction b as [|c b IH]; intros W; [apply ChNil|]. inversion W as [|? ? H F]; subst. simpl. unfold esc_text at 1. simpl in H.
  assert (K1 : beq c "007" = false) by (apply beq_ne; intros ->; tauto).
  assert (K2 : beq c "008" = false) by (apply beq_ne; intros ->; tauto).
  assert (K3 : beq c "012" = false) by (apply beq_ne; intros ->; tauto).
  assert (K4 : beq c "013" = false) by (apply beq_ne; intros ->; tauto).
  assert (K5 : beq c "011" = false) by (apply beq_ne; intros ->; tauto).
  assert (K6 : c <> xFF) by (intros ->; tauto).
  rewrite K1, K2, K3, K4, K5.
  destruct (beq c "010") eqn:B1; [apply beq_eq in B1; subst; apply (ChEsc "n"%char); [simpl; auto 20|apply IH; auto]|].
  destruct (beq c "009") eqn:B2; [apply beq_eq in B2; subst; apply (ChEsc "t"%char); [simpl; auto 20|apply IH; auto]|].
  destruct (beq c """") eqn:B3; [apply beq_eq in B3; subst; apply (ChEsc """"%char); [simpl; auto 20|apply IH; auto]|].
  destruct (beq c "\") eqn:B4; [apply beq_eq in B4; subst; apply (ChEsc "\"%char); [simpl; auto 20|apply IH; auto]|].
  apply beq_ne in B3, B4. apply ChPlain; auto. 
Qed.
Lemma c_chars b : c_string b -> chars b b.
Proof.
  induction b as [|c b IH]; intros W; [apply ChNil|]. inversion W as [|? ? H F]; subst. simpl in H.
  apply ChPlain; auto; intros ->; tauto.
Qed.
Lemma cstr_full (p : byte -> Prop) b : (forall c, p c -> c <> NUL) -> Forall p b -> cstr b = b.
Proof.
  intros P F. apply cstr_nul_free. unfold nul_free. rewrite Forall_forall in F. first [apply Forall_forall; intros c I; apply P, F, I | intros I; apply (P NUL); auto].
Qed.
Lemma write_string_cstr b : write_string b -> cstr b = b.
Proof. apply cstr_full. simpl. intros c H ->. apply H. auto. Qed.
Lemma c_string_cstr b : c_string b -> cstr b = b.
Proof. apply cstr_full. simpl. intros c H ->. apply H. auto. Qed.
Lemma name_cstr n : readable_name n -> cstr n = n.
Proof. intros [F _]. apply (cstr_full (fun c => is_delim c = false /\ c <> xFF /\ c <> NUL)); auto. tauto. Qed.
Lemma name_text n k : readable_name n -> ends k -> core (OSym n) (cstr n) k.
Proof.
  intros R E. assert (C := name_cstr n R). rewrite C. rewrite <- C at 1. destruct R as [F [L H]]. apply CSym; auto.
  - eapply Forall_impl; [|exact F]. intros c [K1 [K2 _]]. unfold is_symc. rewrite K1. apply beq_ne in K2. rewrite K2. reflexivity.
  - destruct n as [|c q]; auto. simpl. tauto.
Qed.

(** The texts that can start an element of a list: no blank, no comment, and a dot
    only in front of something else than a blank. *)
Definition wellhead (t : list byte) : Prop :=
  exists c q, t = c :: q /\ is_space c = false /\ c <> ";"%char /\ (c = "."%char -> exists e q', q = e :: q' /\ is_space e = false).
Lemma wellhead_lit c q : is_space c = false -> c <> ";"%char -> c <> "."%char -> wellhead (c :: q).
Proof. intros H1 H2 H3. exists c, q. repeat split; auto. intros ->. contradiction. Qed.
Lemma name_wellhead n : readable_name n -> wellhead n.
Proof.
  intros [F [_ H]]. destruct n as [|c q]; [destruct H|]. inversion F as [|? ? [D _] F']; subst. exists c, q. split; auto.
  assert (S : forall x, is_delim x = false -> is_space x = false). { intros x K. destruct (is_space x) eqn:X; auto. apply space_delim in X. congruence. }
  split; [auto|]. split; [intros ->; discriminate|]. intros Q. destruct H as [_ [_ [_ [_ H]]]]. specialize (H Q). destruct q as [|e q]; [contradiction|].
  inversion F' as [|? ? [D' _] _]; subst. eauto.
Qed.
Lemma long_wellhead z : wellhead (print_long z).
Proof.
  unfold print_long. destruct (z <? 0)%Z; [apply wellhead_lit; [reflexivity|discriminate|discriminate]|].
  destruct (print_nat_spec (Z.to_N z)) as [_ [D [NE _]]]. destruct (print_nat (Z.to_N z)) as [|c q]; [contradiction|].
  inversion D as [|? ? DD _]; subst. apply wellhead_lit; [|intros ->; discriminate|intros ->; discriminate].
  destruct (is_space c) eqn:S; auto. apply space_delim, delim_symc in S. apply (digit_symc false) in DD. congruence.
Qed.
Lemma wellhead_app t r : wellhead t -> wellhead (t ++ r).
Proof. intros [c [q [-> [H1 [H2 H3]]]]]. exists c, (q ++ r). repeat split; auto. intros E. destruct (H3 E) as [e [q' [-> S]]]. exists e, (q' ++ r). auto. Qed.
(** No dot that separates the tail of a list is seen where [t] starts. *)
Definition dotless (s : list byte) : Prop :=
  forall w e r, s = w ++ "."%char :: e :: r -> ws w ("."%char :: e :: r) -> is_space e = false.
Lemma skip_dot s w e r : s = w ++ "."%char :: e :: r -> ws w ("."%char :: e :: r) -> skip false s = "."%char :: e :: r.
Proof. intros -> W. apply skip_at; auto. discriminate. Qed.
Lemma wellhead_dotless t : wellhead t -> dotless t.
Proof.
  intros [c [q [-> [H1 [H2 H3]]]]] w e r E W. assert (S := skip_dot _ _ _ _ E W). rewrite skip_solid in S by (simpl; auto).
  injection S as -> ->. destruct (H3 eq_refl) as [e' [q' [E' K]]]. injection E' as -> ->. exact K.
Qed.
Lemma space_dotless t : dotless t -> dotless (" "%char :: t).
Proof.
  intros D w e r E W. assert (S := skip_dot _ _ _ _ E W). simpl in S. destruct (skip_spec t) as [v [Ev [V _]]]. rewrite S in Ev, V.
  apply (D v e r); auto.
Qed.
Lemma text_space o t k : text o t k -> text o (" "%char :: t) k.
Proof.
  intros T. assert (SP : forall w s, ws w s -> ws (" "%char :: w) s) by (intros; apply WsSpace; auto).
  destruct T as [w o t k W C|w b o t k W B T|w v c t1 d o t k W V H1 H2 H3 T1 T2].
  - apply (TCore (" "%char :: w)); auto.
  - apply (TBlock (" "%char :: w)); auto.
  - eapply (TDatum (" "%char :: w)); eauto.
Qed.
Lemma items_space op o t k : items op o t k -> items op o (" "%char :: t) k.
Proof.
  intros T. destruct T.
  - apply (IEnd open (" "%char :: w)); auto. apply WsSpace; auto.
  - apply (ICons open a (" "%char :: t1)); auto. apply text_space; auto.
  - eapply (IDot open a (" "%char :: t1)); eauto. apply text_space; auto.
Qed.

(** ** Printers in general

    A printer [W] prints a datum well if the text denotes the datum whenever a
    delimiter follows. *)
Definition good (W : obj -> list byte) (o : obj) : Prop := (forall k, ends k -> text o (W o) k) /\ wellhead (W o).
Fixpoint tail_text (W : obj -> list byte) (o : obj) : list byte :=
  match o with
  | OPair a d => " "%char :: W a ++ tail_text W d
  | ONull => []
  | x => s2b " . " ++ W x
  end.
Fixpoint goods (W : obj -> list byte) (o : obj) : Prop :=
  match o with ONull => True | OPair a d => good W a /\ goods W d | x => good W x end.
Lemma tail_ends W d k : ends (tail_text W d ++ ")"%char :: k).
Proof. destruct d; simpl; auto. Qed.
Lemma dot_items W a x k : good W a -> good W x -> items "(" (OPair a x) (W a ++ (s2b " . " ++ W x) ++ [")"%char]) k.
Proof.
  intros [Ta _] [Tx _].
  assert (I : items "(" (OPair a x) (W a ++ s2b " " ++ "."%char :: (" "%char :: W x) ++ [] ++ [")"%char]) k).
  { apply IDot.
    - apply Ta. reflexivity.
    - apply WsSpace; [reflexivity|apply WsNil].
    - reflexivity.
    - apply text_space, Tx. reflexivity.
    - apply WsNil.
    - reflexivity. }
  simpl in I |- *. exact I.
Qed.
Lemma pair_items W d : goods W d -> forall a k, good W a -> items "(" (OPair a d) (W a ++ tail_text W d ++ [")"%char]) k.
Proof.
  induction d as [| | | | | | | | | |a' _ d' IH| | | | | | |]; intros G a k Ga; try (apply dot_items; assumption).
  - apply ICons.
    + apply (proj1 Ga). reflexivity.
    + apply (IEnd "("%char []); [apply WsNil|reflexivity].
    + apply (wellhead_dotless (")"%char :: k)). apply wellhead_lit; [reflexivity|discriminate|discriminate].
  - destruct G as [Ga' G]. simpl. apply ICons.
    + apply (proj1 Ga). reflexivity.
    + apply items_space. rewrite <- app_assoc. apply IH; auto.
    + apply space_dotless, wellhead_dotless. repeat apply wellhead_app. apply Ga'.
Qed.
Definition more_text (W : obj -> list byte) (l : list obj) : list byte := flat_map (fun x => " "%char :: W x) l.
Lemma vec_elems W l : Forall (good W) l -> forall k, ends k -> elems l (more_text W l ++ [")"%char]) k.
Proof.
  induction 1 as [|x l G _ IH]; intros k E.
  - apply (ENil [] k); auto. apply WsNil.
  - unfold more_text. cbn [flat_map]. rewrite <- app_assoc. apply ECons; [|apply IH; auto]. apply text_space. apply G.
    rewrite <- app_assoc. destruct l; simpl; auto.
Qed.
Lemma vec_elems' W x l : Forall (good W) (x :: l) -> forall k, ends k -> elems (x :: l) (W x ++ more_text W l ++ [")"%char]) k.
Proof.
  intros F k E. inversion F as [|? ? G F']; subst. apply ECons; [|apply vec_elems; auto]. apply G.
  rewrite <- app_assoc. destruct l; simpl; auto.
Qed.
(** The requirements on a printer. *)
Lemma printer_good (str : list byte -> Prop) boxes evec (W : obj -> list byte) :
  W ONull = s2b "()" -> W OTrue = s2b "#t" -> W OFalse = s2b "#f" ->
  (forall n, W (OSym n) = cstr n) -> (forall z, W (OFix z) = print_long z) -> (forall c, W (OChar c) = s2b "#\" ++ char_text c) ->
  (forall b, str b -> cstr b = b /\ exists t, W (OStr b) = """"%char :: t ++ [""""%char] /\ chars b t) ->
  (forall a d, W (OPair a d) = "("%char :: W a ++ tail_text W d ++ [")"%char]) ->
  (forall x l, W (OVec (x :: l)) = s2b "#(" ++ W x ++ more_text W l ++ [")"%char]) ->
  (evec = true -> W OEmptyVec = s2b "#()") ->
  (boxes = true -> forall x, W (OBox x) = s2b "#&" ++ W x) ->
  forall o, readable str boxes evec o -> good W o.
Proof.
  intros Wn Wt Wf Wsy Wz Wc Wst Wp Wv We Wb.
  assert (HASH : forall t, wellhead ("#"%char :: t)) by (intros t; apply wellhead_lit; [reflexivity|discriminate|discriminate]).
  assert (GC : forall o, (forall k, ends k -> core o (W o) k) -> wellhead (W o) -> good W o).
  { intros o C H. split; auto. intros k E. apply (TCore []); [apply WsNil|auto]. }
  assert (GG : forall o, readable str boxes evec o -> good W o /\ goods W o).
  { intros o. induction o using obj_ind_strong; intros R; inversion R; subst;
      try match goal with |- good W ?x /\ goods W ?x => cut (good W x); [intros G; exact (conj G G)|] end.
    - split; [|exact Logic.I]. apply GC; rewrite Wn; [|apply wellhead_lit; [reflexivity|discriminate|discriminate]].
      intros k E. apply (CList "("%char ONull (s2b ")")); [reflexivity|]. apply (IEnd "("%char []); [apply WsNil|reflexivity].
    - apply GC; rewrite Wt; [intros; apply CTrue|apply HASH].
    - apply GC; rewrite Wf; [intros; apply CFalse|apply HASH].
    - apply GC; rewrite Wsy; [intros; apply name_text; auto|]. rewrite name_cstr by auto. apply name_wellhead; auto.
    - destruct (Wst b H0) as [C [t [E CH]]]. apply GC; rewrite E.
      + intros k _. rewrite <- C at 1. apply CStr; auto.
      + apply wellhead_lit; [reflexivity|discriminate|discriminate].
    - apply GC; rewrite Wz; [intros; apply long_text; auto|apply long_wellhead].
    - apply GC; rewrite Wc; [intros; apply char_read; auto|apply HASH].
    - destruct (IHo1 ltac:(assumption)) as [G1 _]. destruct (IHo2 ltac:(assumption)) as [_ G2]. split; [|simpl; auto].
      apply GC; rewrite Wp; [|apply wellhead_lit; [reflexivity|discriminate|discriminate]].
      intros k E. apply CList; [reflexivity|]. apply pair_items; auto.
    - apply GC; rewrite We by auto; [|apply HASH]. intros k E. apply (CVec [] (s2b ")")). apply (ENil []); [apply WsNil|auto].
    - match goal with K : forall y, In y (?x :: ?l) -> readable _ _ _ y |- _ => rename K into RD; assert (F : Forall (good W) (x :: l)) end.
      { rewrite Forall_forall in *. intros y I. apply H; auto. }
      apply GC; rewrite Wv; [|apply HASH]. intros k E. match goal with |- core (OVec (?x :: ?l)) _ _ => apply (CVec (x :: l)) end. apply vec_elems'; auto.
    - destruct (IHo ltac:(assumption)) as [G _]. apply GC; rewrite Wb by auto; [|apply HASH]. intros k E. apply CBox. apply G; auto. }
  intros o R. apply GG, R.
Qed.

Lemma write_tail d : forall a, write (OPair a d) = "("%char :: write a ++ tail_text write d ++ [")"%char].
Proof.
  assert (E : forall a, exists t, write (OPair a d) = "("%char :: write a ++ t ++ [")"%char] /\ t = tail_text write d).
  { induction d; intros a; try (eexists; split; [cbn [write]; reflexivity|reflexivity]).
    eexists. split; [cbn [write]; reflexivity|]. cbn [tail_text]. f_equal. f_equal.
    destruct (IHd2 d1) as [t [E1 E2]]. rewrite <- E2. cbn [write] in E1. injection E1 as E1. apply app_inv_head in E1. apply app_inv_tail in E1. exact E1. }
  intros a. destruct (E a) as [t [E1 <-]]. exact E1.
Qed.
Lemma write_vec x l : write (OVec (x :: l)) = s2b "#(" ++ write x ++ more_text write l ++ [")"%char].
Proof.
  assert (E : forall l x, exists t, write (OVec (x :: l)) = s2b "#(" ++ write x ++ t ++ [")"%char] /\ t = more_text write l).
  { clear. induction l as [|y l IH]; intros x.
    - exists []. split; [|reflexivity]. simpl. rewrite app_nil_r. reflexivity.
    - destruct (IH y) as [t [E1 E2]]. exists (" "%char :: write y ++ t). split; [|simpl; rewrite E2; reflexivity].
      cbn [write] in E1 |- *. simpl in E1 |- *. injection E1 as E1. rewrite <- !app_assoc in E1. apply app_inv_head in E1. apply app_inv_tail in E1.
      rewrite <- E1. rewrite <- !app_assoc. simpl. rewrite <- !app_assoc. reflexivity. }
  destruct (E l x) as [t [E1 <-]]. exact E1.
Qed.
Lemma c_write_tail d : forall a, c_write (OPair a d) = "("%char :: c_write a ++ tail_text c_write d ++ [")"%char].
Proof.
  assert (E : forall a, exists t, c_write (OPair a d) = "("%char :: c_write a ++ t ++ [")"%char] /\ t = tail_text c_write d).
  { induction d; intros a; try (eexists; split; [cbn [c_write]; reflexivity|reflexivity]).
    eexists. split; [cbn [c_write]; reflexivity|]. cbn [tail_text]. f_equal. f_equal.
    destruct (IHd2 d1) as [t [E1 E2]]. rewrite <- E2. cbn [c_write] in E1. injection E1 as E1. apply app_inv_head in E1. apply app_inv_tail in E1. exact E1. }
  intros a. destruct (E a) as [t [E1 <-]]. exact E1.
Qed.
Lemma c_write_vec x l : c_write (OVec (x :: l)) = s2b "#(" ++ c_write x ++ more_text c_write l ++ [")"%char].
Proof.
  cbn [c_write]. f_equal.
Qed.

(** ** Theorems *)

(** The prelude's [write]: the text is read as the same datum and exactly the text
    is consumed, whatever delimiter follows. *)
Theorem C23_write_read_partial o k :
  readable write_string false false o ->
  match k with [] => True | c :: _ => is_delim c = true end ->
  reads (write o ++ k) o k.
Proof.
  intros R E. apply (proj1 complete). apply (printer_good write_string false false write); auto; try discriminate.
  - intros b S. split; [apply write_string_cstr; auto|]. exists (flat_map esc_text b). split; [simpl; rewrite write_string_cstr; auto|apply esc_chars; auto].
  - intros. apply write_tail.
  - apply write_vec.
Qed.
(** The printer of the C core: with boxes and empty vectors, but without escapes
    in strings. *)
Theorem C23_print_read_partial o k :
  readable c_string true true o ->
  match k with [] => True | c :: _ => is_delim c = true end ->
  reads (c_write o ++ k) o k.
Proof.
  intros R E. apply (proj1 complete). apply (printer_good c_string true true c_write); auto.
  - intros b S. split; [apply c_string_cstr; auto|]. exists b. split; [simpl; rewrite c_string_cstr; auto|apply c_chars; auto].
  - intros. apply c_write_tail.
Qed.
(** Two data that are printed alike are the same datum. *)
Theorem C23_write_injective_partial o o' :
  readable write_string false false o -> readable write_string false false o' -> write o = write o' -> o = o'.
Proof.
  intros R R' E. assert (A := C23_write_read_partial o [] R Logic.I). assert (B := C23_write_read_partial o' [] R' Logic.I).
  rewrite E in A. apply (reads_det _ _ _ _ _ A B).
Qed.
(** Data printed one after the other, separated by newlines, are read one after
    the other. *)
Theorem C23_write_sequence_partial l k :
  Forall (readable write_string false false) l ->
  exists rest : list obj -> list byte,
    rest [] = k /\
    rest l = flat_map (fun o => write o ++ ["010"%char]) l ++ k /\
    forall o q, (exists p, l = p ++ o :: q) -> reads (rest (o :: q)) o ("010"%char :: rest q).
Proof.
  intros F. exists (fun l => flat_map (fun o => write o ++ ["010"%char]) l ++ k). split; auto. split; auto.
  intros o q [p ->]. apply Forall_app in F. destruct F as [_ F]. inversion F; subst. simpl.
  rewrite <- !app_assoc. apply C23_write_read_partial; auto.
Qed.

(** Data that do not survive. *)
(** What [write] gives for a string: the characters between double quotes, those of the table
    with a backslash and a letter. *)
Definition escapes : list (byte * list byte) :=
  [("007", s2b "\a"); ("008", s2b "\b"); ("009", s2b "\t"); ("010", s2b "\n"); ("011", s2b "\v"); ("012", s2b "\f"); ("013", s2b "\r");
   ("034", s2b "\" ++ ["034"%char]); ("092", s2b "\\")]%char.
Definition escaped (c : byte) (t : list byte) : Prop := In (c, t) escapes \/ ~ In c (map fst escapes) /\ t = [c].
Theorem C23_string_text b : Forall (fun c => c <> "000"%char) b ->
  exists ts, Forall2 escaped b ts /\ write (OStr b) = ["034"%char] ++ List.concat ts ++ ["034"%char].
Proof.
  intros F. exists (map esc_text b). split.
  - clear F. induction b as [|c b IH]; constructor; auto. unfold escaped, esc_text.
    repeat match goal with |- context [if beq c ?x then _ else _] => let B := fresh "B" in destruct (beq c x) eqn:B; [apply beq_eq in B; subst c; left; simpl; tauto|apply beq_ne in B] end.
    right. split; auto. simpl. intros H. repeat destruct H as [H|H]; auto; congruence.
  - simpl. rewrite <- flat_map_concat_map. do 2 f_equal. f_equal. clear - F. induction F as [|c b N F IH]; auto. simpl. destruct (Ascii.eqb_spec c NUL) as [E|_]; [destruct N; exact E|]. simpl. congruence.
Qed.
Theorem C23_empty_vector_refuted : write OEmptyVec = s2b "#)" /\ read_fails (write OEmptyVec) ESpecial.
Proof. split; [reflexivity|exists 1%nat; reflexivity]. Qed.
Theorem C23_control_characters_refuted c : In c ["007"; "008"; "011"; "012"; "013"]%char -> read_fails (write (OStr [c])) EEscape.
Proof. intros I. exists 1%nat. simpl in I. repeat (destruct I as [<-|I]; [reflexivity|]). destruct I. Qed.
Theorem C23_least_fixnum_refuted : write (OFix (- 2 ^ 63)) = s2b "-9223372036854775808" /\ read_undef (write (OFix (- 2 ^ 63))).
Proof. split; [reflexivity|exists 1%nat; reflexivity]. Qed.
Theorem C23_box_refuted : forall x, write (OBox x) = s2b "#<garbage>".
Proof. reflexivity. Qed.
Theorem C23_long_string_refuted b : Forall (fun c => c = "a"%char) b -> (4096 < lenN b)%N -> read_fails (write (OStr b)) ELong.
Proof.
  intros F L. exists 1%nat. assert (E : cstr b = b) by (apply (cstr_full (fun c => c = "a"%char)); auto; intros c ->; discriminate).
  assert (P : flat_map esc_text b = b). { clear L E. induction F as [|c b -> F IH]; auto. simpl. rewrite IH. reflexivity. }
  cbn [write]. rewrite E, P. change (read_object 1 (""""%char :: b ++ [""""%char])) with (read_string [] (b ++ [""""%char])).
  assert (K : forall b buf, Forall (fun c => c = "a"%char) b -> (lenN buf <= 4096)%N -> (4096 < lenN (buf ++ b))%N -> read_string buf (b ++ [""""%char]) = RErr ELong).
  { clear. induction b as [|c b IH]; intros buf F L1 L2; [rewrite app_nil_r in L2; lia|]. inversion F; subst. cbn [app read_string].
    change (beq "a" """") with false. change (beq "a" xFF) with false. change (beq "a" "\") with false. cbv iota.
    destruct (N.leb_spec buffer_size (lenN buf)) as [H|H]; auto. apply IH; auto.
    - unfold lenN, buffer_size in *. rewrite app_length. simpl. lia.
    - rewrite <- app_assoc. exact L2. }
  apply K; auto. vm_compute. discriminate.
Qed.
(** The symbol whose name is a lone dot changes the shape of the list it is in. *)
Theorem C23_dot_refuted :
  let o := OPair (OSym (s2b "a")) (OPair (OSym (s2b ".")) (OPair (OSym (s2b "b")) ONull)) in
  reads (write o) (OPair (OSym (s2b "a")) (OSym (s2b "b"))) [].
Proof. exists 9%nat. reflexivity. Qed.
(** The C printer does not escape: a string with a quote is read as another datum. *)
Theorem C23_print_quote_refuted : reads (c_write (OStr (s2b "a""b"))) (OStr (s2b "a")) (s2b "b""").
Proof. exists 9%nat. reflexivity. Qed.
(** A number followed by symbol characters is read as a symbol with another name. *)
Theorem C23_odd_symbol_refuted : reads (s2b "1a") (OSym (s2b "11a")) [] /\ reads (s2b "+5a") (OSym (s2b "5a")) [].
Proof. split; exists 9%nat; reflexivity. Qed.

Example C23_ex_readable :
  readable write_string false false
    (OPair (OSym (s2b "define")) (OPair (OFix (-42)) (OPair (OVec [OChar " "%char; OStr (s2b "say ""hi""")]) (OSym (s2b "..."))))).
Proof.
  assert (N : forall n, forallb (fun c => negb (is_delim c) && negb (beq c xFF) && negb (beq c NUL)) n = true ->
    Forall (fun c => is_delim c = false /\ c <> xFF /\ c <> NUL) n).
  { intros n H. rewrite forallb_forall in H. apply Forall_forall. intros c I. specialize (H c I). rewrite !andb_true_iff, !negb_true_iff in H.
    destruct H as [[H1 H2] H3]. apply beq_ne in H2, H3. auto. }
  apply RdPair; [|apply RdPair; [|apply RdPair]].
  - apply RdSym. split; [apply N; reflexivity|]. split; [reflexivity|]. simpl. repeat split; try discriminate; intros [H|H]; discriminate.
  - apply RdFix. lia.
  - apply RdVec. intros y [<-|[<-|[]]]; [apply RdChar; discriminate|apply RdStr; [|reflexivity]].
    unfold write_string. repeat (apply Forall_cons; [simpl; intros H; repeat (destruct H as [H|H]; [discriminate|]); exact H|]). apply Forall_nil.
  - apply RdSym. split; [apply N; reflexivity|]. split; [reflexivity|]. simpl. repeat split; try discriminate; intros [H|H]; discriminate.
Qed.
Example C23_ex_text :
  write (OPair (OSym (s2b "define")) (OPair (OFix (-42)) (OPair (OVec [OChar " "%char; OStr (s2b "say ""hi""")]) (OSym (s2b "..."))))) =
  s2b "(define -42 #(#\space ""say \""hi\"""") . ...)".
Proof. reflexivity. Qed.
Print Assumptions C23_write_read_partial.
Print Assumptions C23_print_read_partial.
Print Assumptions C23_write_injective_partial.
Print Assumptions C23_write_sequence_partial.
Print Assumptions C23_empty_vector_refuted.
Print Assumptions C23_control_characters_refuted.
Print Assumptions C23_least_fixnum_refuted.
Print Assumptions C23_box_refuted.
Print Assumptions C23_long_string_refuted.
Print Assumptions C23_dot_refuted.
Print Assumptions C23_print_quote_refuted.
Print Assumptions C23_odd_symbol_refuted.
Print Assumptions C23_string_text.
