(** A grammar of texts, and the proof that both the built-in reader (Reader.v) and
    the reader of the library (LibRead.v) accept every text of it with the same
    meaning. *)
From Coq Require Import ZArith NArith Bool Ascii String List Lia.
From Verif Require Import Base Decimal Reader ReaderProofs LibRead.
Import ListNotations.
Local Open Scope list_scope.

(** ** Grammar

    [ctext cn o t k]: the text [t] in front of [k] denotes the datum [o].  With
    [cn], the dot notation is only used where no list follows the dot, as printers
    do. *)

(** A delimiter, or the end of the input, follows. *)
Definition delimiters : list byte := s2b " ()[]{}"";" ++ ["010"%char].
Definition cdelim (c : byte) : bool := existsb (beq c) delimiters.
Definition lends (k : list byte) : Prop := match k with [] => True | c :: _ => cdelim c = true end.
(** A delimiter follows. *)
Definition ldelimited (k : list byte) : Prop := match k with [] => False | c :: _ => cdelim c = true end.

(** Spaces, newlines and line comments. *)
Inductive lblank : list byte -> Prop :=
| LbNil : lblank []
| LbSpace w : lblank w -> lblank (" "%char :: w)
| LbNewline w : lblank w -> lblank ("010"%char :: w)
| LbLine l w : ~ In "010"%char l -> lblank w -> lblank (";"%char :: l ++ "010"%char :: w).

(** Bodies of block comments. *)
Inductive cbody : list byte -> Prop :=
| CbNil : cbody []
| CbChar c b : c <> "#"%char -> c <> "|"%char -> c <> xFF -> cbody b -> cbody (c :: b)
| CbMark m d b : m = "#"%char \/ m = "|"%char -> d <> "#"%char -> d <> "|"%char -> d <> xFF -> cbody b -> cbody (m :: d :: b)
| CbNest b1 b2 : cbody b1 -> cbody b2 -> cbody ("#"%char :: "|"%char :: b1 ++ "|"%char :: "#"%char :: b2).

(** The inside of a string. *)
Inductive cchars : list byte -> list byte -> Prop :=
| CcNil : cchars [] []
| CcPlain c b t : c <> """"%char -> c <> "\"%char -> c <> xFF -> c <> NUL -> cchars b t -> cchars (c :: b) (c :: t)
| CcEsc e c b t : In (e, c) [("n"%char, "010"%char); ("\"%char, "\"%char); (""""%char, """"%char)] -> cchars b t -> cchars (c :: b) ("\"%char :: e :: t).

(** The characters of symbols. *)
Definition csymc (c : byte) : bool := is_symc c.

Definition csymbol (t : list byte) : Prop :=
  match t with
  | [] => False
  | c :: q => is_digit c = false /\ c <> "'"%char /\ c <> "#"%char /\
              (c = "+"%char \/ c = "-"%char -> match q with d :: _ => is_digit d = false | [] => True end)
  end.

(** The next token is not a lone dot. *)
Definition no_dot (s : list byte) : Prop :=
  forall w r, lblank w -> s = w ++ "."%char :: r -> exists e r', r = e :: r' /\ csymc e = true /\ e <> NUL.

Inductive ctext (cn : bool) : obj -> list byte -> list byte -> Prop :=
| CtCore w o t k : lblank w -> ccore cn o t k -> ctext cn o (w ++ t) k
| CtBlock w b o t k : lblank w -> cbody b -> ctext cn o t k -> ctext cn o (w ++ s2b "#|" ++ b ++ s2b "|#" ++ t) k
| CtDatum w d t1 o t k : lblank w -> ctext cn d t1 (t ++ k) -> ctext cn o t k -> ctext cn o (w ++ s2b "#;" ++ t1 ++ t) k
with ccore (cn : bool) : obj -> list byte -> list byte -> Prop :=
| CcTrue k : ccore cn OTrue (s2b "#t") k
| CcFalse k : ccore cn OFalse (s2b "#f") k
| CcChar c k : c <> xFF -> lends k -> ccore cn (OChar c) (s2b "#\" ++ [c]) k
| CcSpace k : lends k -> ccore cn (OChar " ") (s2b "#\space") k
| CcNewline k : lends k -> ccore cn (OChar "010") (s2b "#\newline") k
| CcQuote o t k : ctext cn o t k -> ccore cn (quote_form "quote" o) ("'"%char :: t) k
| CcBox o t k : ctext cn o t k -> ccore cn (OBox o) (s2b "#&" ++ t) k
| CcVec l t k : celems cn l t k -> ccore cn (match l with [] => OEmptyVec | _ => OVec l end) (s2b "#(" ++ t) k
| CcNum hex sg z ds k : sign sg z -> Forall (fun c => digit hex c = true) ds -> (hex = false -> ds <> []) -> (value hex ds < 2 ^ 63)%N ->
    (lenN ds < 4095)%N -> ldelimited k -> ccore cn (OFix (z * Z.of_N (value hex ds))) (prefix hex ++ sg ++ ds) k
| CcStr b t k : cchars b t -> (lenN b < 4096)%N -> lends k -> ccore cn (OStr b) (""""%char :: t ++ [""""%char]) k
| CcList open o t k : is_open open = true -> citems cn open o t k -> ccore cn o (open :: t) k
| CcSym t k : Forall (fun c => csymc c = true) t -> csymbol t -> (lenN t < 4096)%N -> lends k ->
    (t = s2b "+" \/ t = s2b "-" -> ldelimited k) -> ccore cn (OSym (cstr t)) t k
with citems (cn : bool) : byte -> obj -> list byte -> list byte -> Prop :=
| CiEnd open w closed k : lblank w -> matching open closed = true -> citems cn open ONull (w ++ [closed]) k
| CiCons open a t1 b t2 k : ctext cn a t1 (t2 ++ k) -> citems cn open b t2 k -> no_dot (t2 ++ k) -> citems cn open (OPair a b) (t1 ++ t2) k
| CiDot open a t1 w e b t2 v closed k :
    ctext cn a t1 (w ++ "."%char :: (e :: t2) ++ v ++ closed :: k) -> lblank w -> lspace e = true ->
    ctext cn b (e :: t2) (v ++ closed :: k) -> lblank v -> matching open closed = true ->
    (cn = true -> match b with OPair _ _ | ONull => False | _ => True end) ->
    citems cn open (OPair a b) (t1 ++ w ++ "."%char :: (e :: t2) ++ v ++ [closed]) k
with celems (cn : bool) : list obj -> list byte -> list byte -> Prop :=
| CeNil w k : lblank w -> lends k -> celems cn [] (w ++ [")"%char]) k
| CeCons o t1 l t2 k : ctext cn o t1 (t2 ++ k) -> celems cn l t2 k -> celems cn (o :: l) (t1 ++ t2) k.

Scheme ctext_min := Minimality for ctext Sort Prop
  with ccore_min := Minimality for ccore Sort Prop
  with citems_min := Minimality for citems Sort Prop
  with celems_min := Minimality for celems Sort Prop.
Combined Scheme cgrammar_ind from ctext_min, ccore_min, citems_min, celems_min.

(** ** The built-in reader *)
Lemma cdelim_ldelim c : cdelim c = ldelim c.
Proof. assert (A : forall c, Bool.eqb (cdelim c) (ldelim c) = true) by (apply all_bytes_ok; reflexivity). apply eqb_prop, A. Qed.
Lemma ldelim_delim c : ldelim c = true -> is_delim c = true.
Proof. intros H. revert c H. assert (A : forall c, implb (ldelim c) (is_delim c) = true) by (apply all_bytes_ok; reflexivity). intros c. apply impl_true, A. Qed.
Lemma lends_ends k : lends k -> ends k.
Proof. destruct k; simpl; auto. rewrite cdelim_ldelim. apply ldelim_delim. Qed.
Lemma ldelimited_ends k : ldelimited k -> lends k.
Proof. destruct k; simpl; tauto. Qed.
Lemma lblank_ws w k : lblank w -> ws w k.
Proof. induction 1; [apply WsNil|apply WsSpace; auto|apply WsSpace; auto|apply WsLine; auto]. Qed.
Lemma cbody_body b : cbody b -> body b.
Proof. induction 1 as [|c b|m d b [->| ->]|b1 b2]; [apply BNil|apply BChar|apply BHash|apply BBar|apply BNest]; auto. Qed.
Lemma cchars_chars b t : cchars b t -> chars b t.
Proof. induction 1; [apply ChNil|apply ChPlain; auto|apply (ChEsc e); auto]. simpl in *. intuition. Qed.
Lemma cchars_nul b t : cchars b t -> cstr b = b.
Proof.
  intros H. apply cstr_nul_free. unfold nul_free.
  induction H as [|c b t N1 N2 N3 N4 H IH|e c b t Hin H IH]; simpl; [tauto|intuition congruence|].
  intros [->|K]; auto. simpl in Hin. intuition discriminate.
Qed.
Lemma lspace_space c : lspace c = true -> is_space c = true.
Proof. unfold lspace. rewrite orb_true_iff, !beq_eq. intros [->| ->]; reflexivity. Qed.

(** How the texts start. *)
Definition lstart (c : byte) : Prop := lspace c = false /\ c <> ";"%char /\ is_close c = false.
Lemma symc_start c : csymc c = true -> lstart c.
Proof.
  intros H. assert (A : forall c, implb (csymc c) (negb (lspace c) && negb (beq c ";") && negb (is_close c)) = true) by (apply all_bytes_ok; reflexivity).
  assert (B := impl_true _ _ (A c) H). rewrite !andb_true_iff, !negb_true_iff, beq_ne in B. unfold lstart. tauto.
Qed.
Lemma symc_space c : csymc c = true -> is_space c = false.
Proof. intros H. destruct (is_space c) eqn:S; auto. apply space_delim, delim_symc in S. unfold csymc in H. congruence. Qed.
Definition first_ok (t : list byte) : Prop := exists c q, t = c :: q /\ lstart c /\ is_space c = false /\ c <> xFF.
Lemma first_lit c q : lspace c = false -> c <> ";"%char -> is_close c = false -> is_space c = false -> c <> xFF -> first_ok (c :: q).
Proof. intros. exists c, q. unfold lstart. auto. Qed.
Lemma first_symc c q : csymc c = true -> first_ok (c :: q).
Proof.
  intros H. exists c, q. split; auto. split; [apply symc_start; auto|]. split; [apply symc_space; auto|].
  intros ->. discriminate.
Qed.
Lemma ccore_first cn o t k : ccore cn o t k -> first_ok t.
Proof.
  intros H. destruct H; try (apply first_lit; (reflexivity || discriminate)).
  - destruct hex; simpl; [apply first_lit; (reflexivity || discriminate)|].
    destruct H; simpl; try (apply first_lit; (reflexivity || discriminate)).
    destruct ds as [|d ds]; [destruct (H1 eq_refl eq_refl)|]. inversion H0; subst. apply first_symc. apply (digit_symc false). auto.
  - unfold is_open in H. rewrite !orb_true_iff, !beq_eq in H. destruct H as [[->| ->]| ->]; apply first_lit; (reflexivity || discriminate).
  - destruct t as [|c q]; [destruct H0|]. inversion H; subst. apply first_symc; auto.
Qed.
Lemma ctext_first cn o t k : ctext cn o t k -> exists w t', t = w ++ t' /\ lblank w /\ first_ok t' /\ ctext cn o t' k.
Proof.
  intros H. destruct H as [w o t k W C|w b o t k W B T|w d t1 o t k W T1 T].
  - exists w, t. split; auto. split; auto. split; [apply (ccore_first _ _ _ _ C)|]. apply (CtCore cn [] o t k); auto. constructor.
  - exists w, (s2b "#|" ++ b ++ s2b "|#" ++ t). split; auto. split; auto. split; [apply first_lit; (reflexivity || discriminate)|].
    apply (CtBlock cn []); auto. constructor.
  - exists w, (s2b "#;" ++ t1 ++ t). split; auto. split; auto. split; [apply first_lit; (reflexivity || discriminate)|].
    apply (CtDatum cn [] d); auto. constructor.
Qed.

(** Blank text of the larger set that is followed by something else than blank of
    either set; the tests that the two readers do on a dot agree. *)
Lemma no_dot_dotless s : no_dot s -> ~ (exists c q w, lblank w /\ s = w ++ c :: q /\ is_space c = true /\ lspace c = false) ->
  forall w e r, s = w ++ "."%char :: e :: r -> ws w ("."%char :: e :: r) -> is_space e = false.
Proof.
  intros N H w e r E W.
  assert (B : forall w k, ws w k -> forall p, lblank p -> s = p ++ w ++ k -> match k with [] => False | _ => True end ->
              (lblank (p ++ w)) \/ (exists c q w, lblank w /\ s = w ++ c :: q /\ is_space c = true /\ lspace c = false)).
  { clear. assert (AP : forall p w, lblank p -> lblank w -> lblank (p ++ w)).
    { induction 1; intros; simpl; auto; try (constructor; auto). rewrite <- app_assoc. simpl. constructor; auto. }
    induction 1 as [k|c t k S W IH|l t k NL W IH|l NL]; intros p P E K.
    - left. rewrite app_nil_r. exact P.
    - destruct (lspace c) eqn:L.
      + destruct (IH (p ++ [c])) as [G|G]; auto.
        * apply AP; auto. unfold lspace in L. rewrite orb_true_iff, !beq_eq in L. destruct L as [->| ->]; repeat constructor.
        * rewrite <- app_assoc. exact E.
        * left. rewrite <- app_assoc in G. exact G.
      + right. exists c, (t ++ k), p. auto.
    - destruct (IH (p ++ ";"%char :: l ++ ["010"%char])) as [G|G]; auto.
      + apply AP; auto. apply LbLine; auto. constructor.
      + rewrite E. simpl. repeat (rewrite <- app_assoc || simpl). reflexivity.
      + left. repeat (rewrite <- app_assoc in G || simpl in G). exact G.
    - destruct K. }
  destruct (B _ _ W [] LbNil E Logic.I) as [G|G]; [|contradiction].
  destruct (N w (e :: r) G E) as [e' [r' [E' [S _]]]]. injection E' as <- <-. apply symc_space; auto.
Qed.

Lemma citems_first cn op o t k : citems cn op o t k ->
  exists w c q, t = w ++ c :: q /\ lblank w /\ is_space c = false /\ c <> ";"%char.
Proof.
  intros H. destruct H as [op w c k W M|op a t1 b t2 k T _ _|op a t1 w e b t2 v c k T _ _ _ _ _ _].
  - destruct (matching_close _ _ M) as [_ [K2 [K3 _]]]. exists w, c, []. auto.
  - destruct (ctext_first _ _ _ _ T) as [w [t' [-> [W [[c [q [-> [[_ [C _]] [S _]]]]] _]]]]]. exists w, c, (q ++ t2).
    rewrite <- app_assoc. auto.
  - destruct (ctext_first _ _ _ _ T) as [u [t' [-> [W [[c' [q [-> [[_ [C _]] [S _]]]]] _]]]]]. exists u, c'. eexists.
    rewrite <- app_assoc. simpl. auto.
Qed.
(** The place of the first character that is not blank is unique. *)
Lemma lblank_unique w : lblank w -> forall w' c q c' q', lblank w' -> w ++ c :: q = w' ++ c' :: q' ->
  lspace c = false -> c <> ";"%char -> lspace c' = false -> c' <> ";"%char -> w = w' /\ c = c' /\ q = q'.
Proof.
  induction 1 as [|w W IH|w W IH|l w N W IH]; intros w' c q c' q' W' E S1 S2 S3 S4.
  - destruct W'; simpl in E; injection E; intros; subst; try discriminate; try contradiction; auto.
  - destruct W'; simpl in E; injection E; intros; subst; try discriminate.
    destruct (IH w0 c q c' q') as [-> [-> ->]]; auto.
  - destruct W'; simpl in E; injection E; intros; subst; try discriminate.
    destruct (IH w0 c q c' q') as [-> [-> ->]]; auto.
  - destruct W' as [|w' W'|w' W'|l' w' N' W']; simpl in E; injection E as H; subst; try discriminate; try contradiction.
    rewrite <- !app_assoc in H. simpl in H.
    assert (L : forall l l' a b, ~ In "010"%char l -> ~ In "010"%char l' -> l ++ "010"%char :: a = l' ++ "010"%char :: b -> l = l' /\ a = b).
    { clear. induction l as [|x l IH]; intros [|y l'] a b N N' E; simpl in *; injection E; intros; subst; try tauto; auto.
      destruct (IH l' a b) as [-> ->]; auto. }
    destruct (L _ _ _ _ N N' H) as [-> E]. destruct (IH _ _ _ _ _ W' E) as [-> [-> ->]]; auto.
Qed.
Lemma citems_no_tab cn op o t k : citems cn op o t k ->
  ~ (exists c q w, lblank w /\ t ++ k = w ++ c :: q /\ is_space c = true /\ lspace c = false).
Proof.
  intros H (c & q & w & W & E & S & L). destruct (citems_first _ _ _ _ _ H) as (w' & c' & q' & -> & W' & S' & C').
  rewrite <- app_assoc in E. simpl in E.
  assert (L' : lspace c' = false). { destruct (lspace c') eqn:X; auto. apply lspace_space in X. congruence. }
  assert (C : c <> ";"%char) by (intros ->; discriminate).
  destruct (lblank_unique _ W' _ _ _ _ _ W E L' C' L C) as [_ [-> _]]. congruence.
Qed.

(** Every text of the grammar is one of the built-in reader. *)
Lemma common_text cn :
  (forall o t k, ctext cn o t k -> text o t k /\ exists w t', t = w ++ t' /\ lblank w /\ first_ok t' /\ text o t' k) /\
  (forall o t k, ccore cn o t k -> core o t k) /\
  (forall op o t k, citems cn op o t k -> items op o t k) /\
  (forall l t k, celems cn l t k -> elems l t k).
Proof.
  apply cgrammar_ind.
  - intros w o t k W C IC. split; [apply TCore; auto; apply lblank_ws; auto|].
    exists w, t. split; auto. split; auto. split; [apply (ccore_first _ _ _ _ C)|]. apply (TCore []); auto. apply WsNil.
  - intros w b o t k W B T [IT _]. split; [apply TBlock; auto; [apply lblank_ws|apply cbody_body]; auto|].
    exists w, (s2b "#|" ++ b ++ s2b "|#" ++ t). split; auto. split; auto. split; [apply first_lit; (reflexivity || discriminate)|].
    apply (TBlock []); auto; [apply WsNil|apply cbody_body; auto].
  - intros w d t1 o t k W T1 [I1 (v & t' & -> & V & (c & q & -> & (L1 & L2 & L3) & L4 & L5) & I2)] T [IT _]. split.
    + rewrite <- app_assoc. apply TDatum with (d := d); auto; apply lblank_ws; auto.
    + exists w, (s2b "#;" ++ (v ++ c :: q) ++ t). split; auto. split; auto. split; [apply first_lit; (reflexivity || discriminate)|].
      rewrite <- app_assoc. apply (TDatum [] v c q d); auto; [apply WsNil|apply lblank_ws; auto].
  - constructor.
  - constructor.
  - intros. constructor; auto using lends_ends.
  - intros. apply (CNamed "s" (s2b "pace")); [simpl; tauto|apply lends_ends; auto].
  - intros. apply (CNamed "n" (s2b "ewline")); [simpl; tauto|apply lends_ends; auto].
  - intros o t k T [IT _]. constructor; auto.
  - intros o t k T [IT _]. constructor; auto.
  - intros l t k E IE. constructor; auto.
  - intros hex sg z ds k SG F D V L K. constructor; auto using lends_ends, ldelimited_ends.
    assert (KL : (List.length (kept sg ds) <= 1)%nat) by (inversion SG; subst; simpl; [destruct ds; simpl; lia|lia|lia]).
    unfold lenN in *. rewrite app_length. change buffer_size with 4096%N. lia.
  - intros b t k C L K. rewrite <- (cchars_nul _ _ C) at 1. constructor; auto using cchars_chars.
  - intros op o t k O C IC. constructor; auto.
  - intros t k F Y L K _. constructor; auto using lends_ends.
    destruct t as [|c q]; simpl in *; auto. destruct Y as (Y1 & Y2 & Y3 & Y4). repeat split; auto. intros E; contradiction.
  - intros op w c k W M. constructor; auto. apply lblank_ws; auto.
  - intros op a t1 b t2 k T [IT _] C IC ND. constructor; auto. apply no_dot_dotless; auto. apply (citems_no_tab _ _ _ _ _ C).
  - intros op a t1 w e b t2 v c k T [IT _] W L T2 [IT2 _] V M _. constructor; auto using lspace_space; apply lblank_ws; auto.
  - intros w k W K. constructor; [apply lblank_ws; auto|apply lends_ends; auto].
  - intros o t1 l t2 k T [IT _] C IC. constructor; auto.
Qed.

(** ** The reader of the library *)
Lemma lskip_comment l s : ~ In "010"%char l -> lskip true (l ++ s) = lskip true s.
Proof.
  induction l as [|c l IH]; simpl; auto. intros H. destruct (beq c "010") eqn:E; [apply beq_eq in E; subst; tauto|]. apply IH. tauto.
Qed.
Lemma lskip_blank w k : lblank w -> lskip false (w ++ k) = lskip false k.
Proof.
  induction 1 as [|w W IH|w W IH|l w N W IH]; simpl; auto.
  rewrite <- app_assoc, lskip_comment by auto. simpl. exact IH.
Qed.
Lemma lskip_at c q : lspace c = false -> c <> ";"%char -> lskip false (c :: q) = c :: q.
Proof. intros H N. simpl. rewrite H. apply beq_ne in N. rewrite N. reflexivity. Qed.
Lemma lskip_idem s : forall com, lskip false (lskip com s) = lskip com s.
Proof.
  induction s as [|c s IH]; intros com; simpl; auto. destruct com.
  - destruct (beq c "010"); auto.
  - destruct (lspace c) eqn:S; auto. destruct (beq c ";") eqn:C; auto. simpl. rewrite S, C. reflexivity.
Qed.
Lemma lread_skip f s : lread f (lskip false s) = lread f s.
Proof. destruct f; auto. cbn [lread]. rewrite lskip_idem. reflexivity. Qed.
Lemma lread_pair_skip f op s : lread_pair f op (lskip false s) = lread_pair f op s.
Proof. destruct f; auto. cbn [lread_pair]. rewrite lskip_idem. reflexivity. Qed.
Lemma lread_vector_skip f acc s : lread_vector f acc (lskip false s) = lread_vector f acc s.
Proof. destruct f; auto. cbn [lread_vector]. rewrite lskip_idem. reflexivity. Qed.
Lemma lread_rest_skip f op a s : lread_rest f op a (lskip false s) = lread_rest f op a s.
Proof. destruct f; auto. cbn [lread_rest]. rewrite lskip_idem. reflexivity. Qed.
Lemma lread_blank f w s : lblank w -> lread f (w ++ s) = lread f s.
Proof. intros W. rewrite <- lread_skip, (lskip_blank _ _ W), lread_skip. reflexivity. Qed.

Lemma lblock_body b : cbody b -> forall lvl s, lblock lvl (b ++ s) = lblock lvl s.
Proof.
  induction 1 as [|c b N1 N2 N3 B IH|m d b M N1 N2 N3 B IH|b1 b2 B1 IH1 B2 IH2]; intros lvl s; auto.
  - simpl. apply beq_ne in N1, N2. rewrite N1, N2. apply IH.
  - apply beq_ne in N1, N2. destruct M as [->| ->]; cbn -[beq]; change (beq "#" "#") with true; change (beq "|" "#") with false; change (beq "|" "|") with true; cbv iota;
      rewrite ?N1, ?N2; apply IH.
  - cbn [app]. rewrite <- app_assoc. cbn [app]. change (lblock lvl ("#"%char :: "|"%char :: b1 ++ "|"%char :: "#"%char :: b2 ++ s)) with (lblock (S lvl) (b1 ++ "|"%char :: "#"%char :: b2 ++ s)).
    rewrite IH1. apply IH2.
Qed.
Lemma lstring_ok b t : cchars b t -> forall acc k, lread_string acc (t ++ """"%char :: k) = LOk (acc ++ b) k.
Proof.
  induction 1 as [|c b t N1 N2 N3 N4 H IH|e c b t Hin H IH]; intros acc k.
  - rewrite app_nil_r. reflexivity.
  - simpl. apply beq_ne in N1, N2. rewrite N1, N2. rewrite IH, <- app_assoc. reflexivity.
  - assert (E : lread_string acc (("\"%char :: e :: t) ++ """"%char :: k) = lread_string (acc ++ [c]) (t ++ """"%char :: k)).
    { simpl in Hin. repeat (destruct Hin as [Hin|Hin]; [injection Hin as <- <-; reflexivity|]). destruct Hin. }
    rewrite E, IH, <- app_assoc. reflexivity.
Qed.

Lemma symc_lsymc c : csymc c = true -> lsymc c = true.
Proof.
  apply impl_true. revert c. apply all_bytes_ok. reflexivity.
Qed.
Lemma lends_stops k : lends k -> stops lsymc k.
Proof. destruct k as [|c q]; simpl; auto. unfold lsymc. rewrite cdelim_ldelim. intros ->. reflexivity. Qed.
Lemma lends_ahead k : lends k -> ldelim_ahead k = true.
Proof. destruct k; simpl; auto. rewrite cdelim_ldelim. auto. Qed.
Lemma lends_digit hex k : lends k -> stops (digit hex) k.
Proof. intros. apply ends_digit, lends_ends. auto. Qed.
Lemma lsymbol_ok acc t k : Forall (fun c => csymc c = true) t -> lends k ->
  lread_symbol acc (t ++ k) = LOk (OSym (cstr (acc ++ t))) k.
Proof.
  intros F E. unfold lread_symbol. rewrite span_app; auto using lends_stops.
  eapply Forall_impl; [|exact F]. cbv beta. apply symc_lsymc.
Qed.
Lemma lnumber_ok hex acc z ds k : Forall (fun c => digit hex c = true) ds -> (value hex ds < 2 ^ 63)%N -> ldelimited k ->
  lnumber (digit hex) (value hex) acc z (ds ++ k) = LOk (OFix (z * Z.of_N (value hex ds))) k.
Proof.
  intros F V K. unfold lnumber. rewrite span_app; auto using lends_digit, ldelimited_ends.
  destruct (N.leb_spec (2 ^ 63) (value hex ds)); [lia|]. destruct k as [|c q]; [destruct K|].
  unfold lsymc. simpl in K. rewrite cdelim_ldelim in K. rewrite K. rewrite Z.mul_comm. reflexivity.
Qed.
Lemma lchar_ok c k : lends k -> lread_char (c :: k) = LOk (OChar c) k.
Proof.
  intros E. unfold lread_char. assert (A := lends_ahead _ E). rewrite A.
  destruct k as [|d q]; [destruct (beq c "s"), (beq c "n"); reflexivity|]. simpl in E. rewrite cdelim_ldelim in E.
  assert (NP : beq d "p" = false) by (apply beq_ne; intros ->; discriminate).
  assert (NE : beq d "e" = false) by (apply beq_ne; intros ->; discriminate).
  rewrite NP, NE. destruct (beq c "s"), (beq c "n"); reflexivity.
Qed.

(** ** Syntax objects *)
Fixpoint to_tail (o : obj) : obj :=
  match o with OPair a d => OPair (to_stx a) (to_tail d) | ONull => ONull | x => to_stx x end.
Lemma to_stx_pair a d : to_stx (OPair a d) = OSyntax (OPair (to_stx a) (to_tail d)) OFalse.
Proof. reflexivity. Qed.
Definition is_stx (s : obj) : Prop := exists e c, s = OSyntax e c.
Lemma to_stx_stx s : is_stx s -> to_stx s = s.
Proof. intros (e & c & ->). reflexivity. Qed.
Lemma is_stx_to_stx o : is_stx (to_stx o).
Proof. destruct o; simpl; try (do 2 eexists; reflexivity). Qed.
Inductive pairstx : obj -> Prop :=
| PsNull : pairstx ONull
| PsStx s : is_stx s -> pairstx s
| PsCons s p : is_stx s -> pairstx p -> pairstx (OPair s p).
Lemma to_tail_pairstx p : pairstx p -> to_tail p = p.
Proof.
  induction 1 as [|s (e & c & ->)|s p S P IH]; auto. cbn [to_tail]. rewrite (to_stx_stx _ S), IH. reflexivity.
Qed.

(** The syntax object [s] stands for the datum [o]. *)
Definition lsame (cn : bool) (s o : obj) : Prop := is_stx s /\ strip s = strip o /\ (cn = true -> s = to_stx o).
Definition ltail (cn : bool) (p o : obj) : Prop := pairstx p /\ strip p = strip o /\ (cn = true -> p = to_tail o).
Lemma lsame_refl cn o : match o with OPair _ _ | OVec _ | OEmptyVec | OBox _ | OSyntax _ _ => False | _ => True end -> lsame cn (to_stx o) o.
Proof.
  intros H. split; [apply is_stx_to_stx|]. split; auto. destruct o; try contradiction; reflexivity.
Qed.
Lemma lsame_pair cn p a d : ltail cn p (OPair a d) -> lsame cn (to_stx p) (OPair a d).
Proof.
  intros (P & E & C). destruct P as [|s S|s p S P]; [discriminate| |].
  - rewrite (to_stx_stx _ S). split; auto. split; auto. intros K. rewrite (C K) in S. destruct S as (? & ? & S). discriminate.
  - rewrite to_stx_pair, (to_stx_stx _ S), (to_tail_pairstx _ P). split; [do 2 eexists; reflexivity|]. split; [exact E|].
    intros K. specialize (C K). cbn [to_tail] in C. injection C as -> ->. reflexivity.
Qed.
Lemma lsame_items cn p o : ltail cn p o -> (exists a d, o = OPair a d) \/ o = ONull /\ p = ONull -> lsame cn (to_stx p) o.
Proof.
  intros T [(a & d & ->)|[-> ->]]; [apply lsame_pair; auto|]. apply lsame_refl. exact Logic.I.
Qed.
Lemma lsame_vec cn l l' : Forall2 (lsame cn) l' l ->
  lsame cn (to_stx (match l' with [] => OEmptyVec | _ => OVec l' end)) (match l with [] => OEmptyVec | _ => OVec l end).
Proof.
  intros F. assert (A : map to_stx l' = l' /\ map strip l' = map strip l /\ (cn = true -> l' = map to_stx l)).
  { induction F as [|s o l' l (S1 & S2 & S3) F (I1 & I2 & I3)]; simpl; auto. rewrite I1, I2, (to_stx_stx _ S1), S2.
    split; auto. split; auto. intros K. rewrite <- (S3 K), <- (I3 K). reflexivity. }
  destruct A as (A1 & A2 & A3). destruct F as [|s o l' l S F].
  - split; [do 2 eexists; reflexivity|]. split; reflexivity.
  - split; [do 2 eexists; reflexivity|]. split.
    + cbn [to_stx strip]. rewrite A1, A2. reflexivity.
    + intros K. cbn [to_stx]. rewrite A1, (A3 K). reflexivity.
Qed.

(** A token that starts with a dot and is not a lone dot. *)
Lemma lread_dotted f e r o k : csymc e = true -> e <> NUL -> lread f ("."%char :: e :: r) = LOk o k -> l_is_dot o = false.
Proof.
  intros E N. destruct f as [|f]; [discriminate|]. cbn -[lread_symbol]. unfold lread_symbol. cbn [span].
  change (lsymc ".") with true. rewrite (symc_lsymc _ E). destruct (span lsymc r) as [tok rest]. cbn [lbind].
  intros H. injection H as <- _. cbn. destruct (Ascii.eqb_spec e NUL); [contradiction|]. reflexivity.
Qed.
Lemma lread_dot f e r : ldelim e = true -> lread (S f) ("."%char :: e :: r) = LOk (to_stx (OSym (s2b "."))) (e :: r).
Proof.
  intros E. cbn -[lread_symbol]. unfold lread_symbol. cbn [span]. change (lsymc ".") with true. unfold lsymc at 1. rewrite E. reflexivity.
Qed.
Lemma rest_of_pair n op s p k : no_dot s -> (forall f, (n <= f)%nat -> lread_pair f op s = LOk p k) ->
  forall a f, (S n <= f)%nat -> lread_rest f op a s = LOk (OPair a p) k.
Proof.
  intros ND H a f L. destruct f as [|f]; [lia|]. cbn [lread_rest].
  assert (H1 := H (S f) ltac:(lia)). assert (H0 := H f ltac:(lia)). rewrite <- lread_pair_skip in H0. cbn [lread_pair] in H1.
  destruct (lskip false s) as [|c q] eqn:SK; [discriminate|].
  destruct (beq c ".") eqn:D; [|rewrite H0; reflexivity]. apply beq_eq in D. subst c. cbn [is_close] in H1.
  change (is_close ".") with false in H1. cbv iota in H1.
  destruct (lread f ("."%char :: q)) as [m k1| | |] eqn:R; try discriminate. cbn [lbind] in *.
  assert (DOT : l_is_dot m = false).
  { assert (W : exists w, lblank w /\ s = w ++ "."%char :: q).
    { clear - SK. assert (A : forall com s, lskip com s = "."%char :: q -> if com then exists l w, ~ In "010"%char l /\ lblank w /\ s = l ++ "010"%char :: w ++ "."%char :: q
           else exists w, lblank w /\ s = w ++ "."%char :: q).
      { clear. intros com s. revert com. induction s as [|c s IH]; intros com E; [discriminate|]. simpl in E. destruct com.
        - destruct (beq c "010") eqn:C.
          + apply beq_eq in C. subst. destruct (IH false E) as (w & W & ->). exists [], w. simpl. auto.
          + destruct (IH true E) as (l & w & N & W & ->). apply beq_ne in C. exists (c :: l), w. split; [intros [K|K]; [congruence|tauto]|auto].
        - destruct (lspace c) eqn:C.
          + destruct (IH false E) as (w & W & ->). exists (c :: w). split; auto. unfold lspace in C. rewrite orb_true_iff, !beq_eq in C.
            destruct C as [->| ->]; constructor; auto.
          + destruct (beq c ";") eqn:C2.
            * apply beq_eq in C2. subst. destruct (IH true E) as (l & w & N & W & ->). exists (";"%char :: l ++ "010"%char :: w).
              split; [constructor; auto|]. simpl. rewrite <- app_assoc. reflexivity.
            * injection E as -> ->. exists []. split; [constructor|auto]. }
      exact (A false s SK). }
    destruct W as (w & W & E). destruct (ND _ _ W E) as (e & r' & -> & Y & N). apply (lread_dotted f e r' m k1); auto. }
  rewrite DOT, H1. reflexivity.
Qed.

Lemma lskip_first t k : first_ok t -> exists c q, t ++ k = c :: q /\ lskip false (t ++ k) = c :: q /\ lspace c = false /\ c <> ";"%char /\ is_close c = false.
Proof. intros (c & q & -> & (L1 & L2 & L3) & _). exists c, (q ++ k). cbn [app]. rewrite lskip_at; auto. Qed.
Lemma open_not_special op : is_open op = true ->
  beq op "#" = false /\ beq op "+" || beq op "-" = false /\ is_digit op = false /\ beq op """" = false /\ lspace op = false /\ op <> ";"%char.
Proof. unfold is_open. rewrite !orb_true_iff, !beq_eq. intros [[->| ->]| ->]; repeat split; discriminate. Qed.
Lemma close_lspace op c : matching op c = true -> lspace c = false /\ c <> ";"%char /\ is_close c = true.
Proof.
  intros M. destruct (matching_close _ _ M) as [K1 [K2 [K3 _]]]. repeat split; auto.
  destruct (lspace c) eqn:X; auto. apply lspace_space in X. congruence.
Qed.
Lemma close_symc c : is_close c = true -> beq c "." = false.
Proof. intros H. apply beq_ne. intros ->. discriminate. Qed.

Ltac hashed := cbn [lread s2b list_ascii_of_string app]; rewrite lskip_at by (reflexivity || discriminate); cbn [s2b list_ascii_of_string app];
  repeat match goal with |- context [beq ?a ?b] => let v := eval vm_compute in (beq a b) in
    match v with true => change (beq a b) with true | false => change (beq a b) with false end; cbv iota end.

Lemma common_lib cn :
  (forall o t k, ctext cn o t k -> exists n s, lsame cn s o /\ forall f, (n <= f)%nat -> lread f (t ++ k) = LOk s k) /\
  (forall o t k, ccore cn o t k -> exists n s, lsame cn s o /\ forall f, (n <= f)%nat -> lread f (t ++ k) = LOk s k) /\
  (forall op o t k, citems cn op o t k -> (exists n p, ltail cn p o /\ (forall f, (n <= f)%nat -> lread_pair f op (t ++ k) = LOk p k) /\
     ((exists a d, o = OPair a d) \/ o = ONull /\ p = ONull))) /\
  (forall l t k, celems cn l t k -> exists n l', Forall2 (lsame cn) l' l /\
     forall acc f, (n <= f)%nat -> lread_vector f acc (t ++ k) = LOk (match rev acc ++ l' with [] => OEmptyVec | x => OVec x end) k).
Proof.
  apply cgrammar_ind.
  - intros w o t k W _ (n & s & S & R). exists n, s. split; auto. intros f L. rewrite <- app_assoc, lread_blank; auto.
  - intros w b o t k W B _ (n & s & S & R). exists (Datatypes.S n), s. split; auto. intros f L. destruct f as [|f]; [lia|].
    rewrite <- !app_assoc, lread_blank by auto. hashed. rewrite lblock_body by auto. cbn [s2b list_ascii_of_string app].
    change (lblock 0 ("|"%char :: "#"%char :: t ++ k)) with (LOk tt (t ++ k)). cbn [lbind]. rewrite R by lia. cbn [lbind].
    rewrite to_stx_stx by apply S. reflexivity.
  - intros w d t1 o t k W T1 (n1 & s1 & S1 & R1) _ (n & s & S & R). exists (Datatypes.S (Nat.max n1 n)), s. split; auto.
    intros f L. destruct f as [|f]; [lia|]. rewrite <- !app_assoc, lread_blank by auto. hashed.
    destruct (ctext_first _ _ _ _ T1) as (v & t' & -> & V & F & _).
    rewrite <- app_assoc in R1 |- *. rewrite (lskip_blank _ _ V).
    destruct (lskip_first t' (t ++ k) F) as (c & q & E & -> & _). rewrite <- E.
    rewrite <- (lread_blank f v) by auto. rewrite R1 by lia. cbn [lbind]. apply R. lia.
  - intros k. exists 1%nat, (to_stx OTrue). split; [apply lsame_refl; exact Logic.I|]. intros [|f] L; [lia|]. reflexivity.
  - intros k. exists 1%nat, (to_stx OFalse). split; [apply lsame_refl; exact Logic.I|]. intros [|f] L; [lia|]. reflexivity.
  - intros c k NF K. exists 1%nat, (to_stx (OChar c)). split; [apply lsame_refl; exact Logic.I|]. intros [|f] L; [lia|].
    hashed. rewrite lchar_ok by auto. reflexivity.
  - intros k K. exists 1%nat, (to_stx (OChar " ")). split; [apply lsame_refl; exact Logic.I|]. intros [|f] L; [lia|]. destruct k; reflexivity.
  - intros k K. exists 1%nat, (to_stx (OChar "010")). split; [apply lsame_refl; exact Logic.I|]. intros [|f] L; [lia|]. destruct k; reflexivity.
  - intros o t k T (n & s & S & R). exists (Datatypes.S n), (lquote "quote" s). split.
    + destruct S as (S1 & S2 & S3). unfold lquote, quote_form. rewrite !to_stx_pair. cbn [to_tail]. rewrite (to_stx_stx _ S1).
      split; [do 2 eexists; reflexivity|]. split; [cbn [strip to_stx]; rewrite S2; reflexivity|]. intros C. rewrite (S3 C). reflexivity.
    + intros [|f] L; [lia|]. hashed. change (is_digit "'") with false. change (is_open "'") with false. cbv iota.
      rewrite R by lia. reflexivity.
  - intros o t k T (n & s & S & R). exists (Datatypes.S n), (to_stx (OBox s)). split.
    + destruct S as (S1 & S2 & S3). cbn [to_stx]. rewrite (to_stx_stx _ S1). split; [do 2 eexists; reflexivity|].
      split; [cbn [strip]; rewrite S2; reflexivity|]. intros C. rewrite (S3 C). reflexivity.
    + intros [|f] L; [lia|]. hashed. rewrite R by lia. reflexivity.
  - intros l t k E (n & l' & F & R). exists (Datatypes.S n). eexists. split; [apply (lsame_vec cn l l' F)|].
    intros [|f] L; [lia|]. hashed. rewrite R by lia. destruct l'; reflexivity.
  - intros hex sg z ds k SG F D V L K. exists 1%nat, (to_stx (OFix (z * Z.of_N (value hex ds)))). split; [apply lsame_refl; exact Logic.I|].
    intros [|f] LF; [lia|]. rewrite <- !app_assoc. destruct hex.
    + change (prefix true) with (s2b "#x"). hashed.
      assert (E : forall acc z', lnumber is_xdigit xdigits_value acc z' (ds ++ k) = LOk (OFix (z' * Z.of_N (value true ds))) k)
        by (intros; apply (lnumber_ok true); auto).
      assert (E' : lread_hex (sg ++ ds ++ k) = LOk (OFix (z * Z.of_N (value true ds))) k).
      { inversion SG; subst; cbn [app].
        - assert (X : lread_hex (ds ++ k) = lnumber is_xdigit xdigits_value [] 1 (ds ++ k)).
          { destruct (ds ++ k) as [|c q] eqn:Q; auto. unfold lread_hex.
            assert (H : c <> "+"%char /\ c <> "-"%char).
            { destruct ds as [|d ds]; simpl in Q.
              - subst k. simpl in K. split; intros ->; discriminate.
              - injection Q as <- _. inversion F as [|? ? FD FR]. destruct (digit_sign _ _ FD) as (? & ? & ?). auto. }
            destruct H as [H1 H2]. apply beq_ne in H1, H2. rewrite H1, H2. reflexivity. }
          rewrite X, E. reflexivity.
        - cbn -[lnumber value]. rewrite E. reflexivity.
        - cbn -[lnumber value]. rewrite E. reflexivity. }
      rewrite E'. reflexivity.
    + cbn [prefix app]. assert (ND := D eq_refl). destruct ds as [|d ds]; [congruence|]. assert (DD : is_digit d = true) by (inversion F; auto).
      assert (E : lread_number ((d :: ds) ++ k) = LOk (OFix (1 * Z.of_N (value false (d :: ds)))) k) by (apply (lnumber_ok false); auto).
      assert (ND1 : lspace d = false /\ d <> ";"%char).
      { assert (Y := symc_start d (digit_symc false d DD)). unfold lstart in Y. tauto. }
      destruct (digit_sign false _ DD) as (P1 & P2 & P3).
      inversion SG; subst; cbn [app].
      * cbn [lread]. rewrite lskip_at by tauto. apply beq_ne in P1, P2. rewrite P1, P2, DD. cbn [orb].
        assert (NH : beq d "#" = false) by (apply beq_ne; intros ->; discriminate). rewrite NH. cbn [app] in E. rewrite E.
        cbn [lbind]. repeat match goal with |- context [OFix ?a] => progress ring_simplify a end. reflexivity.
      * hashed. cbn [orb]. rewrite DD. cbn [app] in E. rewrite E. cbn [lbind]. repeat match goal with |- context [OFix ?a] => progress ring_simplify a end. reflexivity.
      * hashed. cbn [orb]. rewrite DD. cbn [app] in E. rewrite E. cbn [lbind]. repeat match goal with |- context [OFix ?a] => progress ring_simplify a end. reflexivity.
  - intros b t k C L K. exists 1%nat, (to_stx (OStr b)). split; [apply lsame_refl; exact Logic.I|].
    intros [|f] LF; [lia|]. cbn [app]. rewrite <- app_assoc. cbn [app]. hashed. change (is_digit """") with false. cbn [orb]. cbv iota.
    rewrite (lstring_ok _ _ C). cbn [lbind app]. rewrite (lends_ahead _ K). reflexivity.
  - intros op o t k O C (n & p & P & R & SH). exists (Datatypes.S n), (to_stx p). split; [apply lsame_items; auto|].
    intros [|f] L; [lia|]. cbn [app lread]. destruct (open_not_special _ O) as (H1 & H2 & H3 & H4 & H5 & H6).
    rewrite lskip_at by auto. rewrite H1, H2, H3, H4, O. rewrite R by lia. reflexivity.
  - intros t k F Y L K SGN. exists 1%nat, (to_stx (OSym (cstr t))). split; [apply lsame_refl; exact Logic.I|].
    intros [|f] LF; [lia|]. destruct t as [|c q]; [destruct Y|]. destruct Y as (Y1 & Y2 & Y3 & Y4).
    assert (CS : csymc c = true) by (inversion F; auto).
    destruct (symc_start _ CS) as (S1 & S2 & S3). cbn [app lread]. rewrite lskip_at by auto.
    apply beq_ne in Y3. rewrite Y3. destruct (beq c "+" || beq c "-") eqn:PM.
    + assert (PM' : c = "+"%char \/ c = "-"%char) by (rewrite orb_true_iff, !beq_eq in PM; auto).
      assert (FQ : Forall (fun c => csymc c = true) q) by (inversion F; auto).
      assert (E := lsymbol_ok [c] q k FQ K). cbn [app] in E. rewrite E.
      destruct (q ++ k) as [|x r] eqn:Q.
      * exfalso. apply app_eq_nil in Q. destruct Q as [-> ->]. apply SGN. destruct PM' as [->| ->]; auto.
      * assert (DX : is_digit x = false).
        { destruct q as [|y q]; simpl in Q.
          - subst k. assert (Z := lends_digit false _ K). exact Z.
          - injection Q as <- _. apply Y4. exact PM'. }
        rewrite DX. reflexivity.
    + rewrite Y1. assert (NQ : beq c """" = false) by (apply beq_ne; intros ->; discriminate).
      assert (NO : is_open c = false).
      { destruct (is_open c) eqn:OP; auto. unfold is_open in OP. rewrite !orb_true_iff in OP. destruct OP as [[OP|OP]|OP]; apply beq_eq in OP; subst; discriminate. }
      apply beq_ne in Y2. rewrite NQ, NO, Y2, (symc_lsymc _ CS). assert (E := lsymbol_ok [] (c :: q) k F K). cbn [app] in E. rewrite E. reflexivity.
  - intros op w c k W M. exists 1%nat, ONull. split; [split; [constructor|split; reflexivity]|]. split; [|auto].
    intros [|f] L; [lia|]. destruct (close_lspace _ _ M) as (C1 & C2 & C3). rewrite <- app_assoc. cbn [lread_pair].
    rewrite (lskip_blank _ _ W). cbn [app]. rewrite lskip_at by auto. rewrite C3, M. reflexivity.
  - intros op a t1 b t2 k T1 (n1 & s1 & S1 & R1) C (n2 & p & P & R2 & _) ND. exists (Datatypes.S (Nat.max n1 (Datatypes.S n2))), (OPair s1 p).
    split.
    { destruct S1 as (X1 & X2 & X3), P as (P1 & P2 & P3). split; [apply PsCons; auto|]. split; [cbn [strip]; rewrite X2, P2; reflexivity|].
      intros K. cbn [to_tail]. rewrite <- (X3 K), <- (P3 K). reflexivity. }
    split; [|left; eauto]. intros [|f] L; [lia|]. cbn [lread_pair]. destruct (ctext_first _ _ _ _ T1) as (v & t' & -> & V & F & _).
    rewrite <- !app_assoc in R1. rewrite <- !app_assoc. rewrite (lskip_blank _ _ V).
    destruct (lskip_first t' (t2 ++ k) F) as (c & q & E & -> & C1 & C2 & C3). rewrite C3, <- E.
    rewrite <- (lread_blank f v) by auto. rewrite R1 by lia. cbn [lbind].
    apply (rest_of_pair n2); auto. lia.
  - intros op a t1 w e b t2 v c k T1 (n1 & s1 & S1 & R1) W LE T2 (n2 & s2 & S2 & R2) V M CN.
    exists (Datatypes.S (Datatypes.S (Datatypes.S (Nat.max n1 n2)))), (OPair s1 s2). split.
    { destruct S1 as (X1 & X2 & X3), S2 as (P1 & P2 & P3). split; [apply PsCons; auto; apply PsStx; auto|].
      split; [cbn [strip]; rewrite X2, P2; reflexivity|].
      intros K. cbn [to_tail]. rewrite (X3 K), (P3 K). specialize (CN K). destruct b; try contradiction; reflexivity. }
    split; [|left; eauto]. intros [|f] L; [lia|]. cbn [lread_pair]. destruct (ctext_first _ _ _ _ T1) as (u & t' & -> & U & F & _).
    rewrite <- !app_assoc in R1. replace (((u ++ t') ++ w ++ "."%char :: (e :: t2) ++ v ++ [c]) ++ k) with (u ++ t' ++ w ++ "."%char :: (e :: t2) ++ v ++ c :: k)
      by (repeat (rewrite <- app_assoc || cbn [app]); reflexivity).
    rewrite (lskip_blank _ _ U).
    destruct (lskip_first t' (w ++ "."%char :: (e :: t2) ++ v ++ c :: k) F) as (c' & q & E & -> & C1 & C2 & C3). rewrite C3, <- E.
    rewrite <- (lread_blank f u) by auto. rewrite R1 by lia. cbn [lbind].
    destruct f as [|f]; [lia|]. cbn [lread_rest]. rewrite (lskip_blank _ _ W). rewrite lskip_at by (reflexivity || discriminate).
    change (beq "." ".") with true. cbv iota. destruct f as [|f]; [lia|].
    assert (DE : ldelim e = true) by (unfold ldelim; rewrite LE; reflexivity).
    cbn [app]. rewrite (lread_dot f e _ DE). cbn [lbind]. change (l_is_dot (to_stx (OSym (s2b ".")))) with true. cbv iota.
    change (e :: t2 ++ v ++ c :: k) with ((e :: t2) ++ v ++ c :: k). rewrite R2 by lia. cbn [lbind].
    rewrite (lskip_blank _ _ V). destruct (close_lspace _ _ M) as (K1 & K2 & K3). rewrite lskip_at by auto. rewrite K3, M. reflexivity.
  - intros w k W K. exists 1%nat, []. split; [constructor|]. intros acc [|f] L; [lia|]. cbn [lread_vector]. rewrite <- app_assoc, (lskip_blank _ _ W).
    cbn [app]. rewrite lskip_at by (reflexivity || discriminate). change (beq ")" ")") with true. cbv iota. rewrite app_nil_r.
    destruct acc as [|x acc]; auto. destruct (rev (x :: acc)) eqn:RV; auto. apply (f_equal (@List.length obj)) in RV. rewrite rev_length in RV. discriminate.
  - intros o t1 l t2 k T1 (n1 & s1 & S1 & R1) E (n2 & l' & F & R2). exists (Datatypes.S (Nat.max n1 n2)), (s1 :: l'). split; [constructor; auto|].
    intros acc [|f] L; [lia|]. cbn [lread_vector]. destruct (ctext_first _ _ _ _ T1) as (v & t' & -> & V & FO & _).
    rewrite <- !app_assoc in R1. rewrite <- !app_assoc. rewrite (lskip_blank _ _ V).
    destruct (lskip_first t' (t2 ++ k) FO) as (c & q & EQ & -> & C1 & C2 & C3).
    assert (NC : beq c ")" = false) by (apply beq_ne; intros ->; discriminate). rewrite NC, <- EQ.
    rewrite <- (lread_blank f v) by auto. rewrite R1 by lia. cbn [lbind]. rewrite R2 by lia. cbn [rev]. rewrite <- app_assoc. reflexivity.
Qed.

(** ** More fuel does not change the result *)
Definition lle {A} (a b : lres A) : Prop := a = LFuel \/ a = b.
Lemma lle_refl {A} (a : lres A) : lle a a. Proof. right. reflexivity. Qed.
Lemma lle_bind {A B} (a b : lres A) (g h : A -> list byte -> lres B) :
  lle a b -> (forall x k, lle (g x k) (h x k)) -> lle (lbind a g) (lbind b h).
Proof. intros [->| ->] H; [left; reflexivity|]. destruct b; simpl; auto; right; reflexivity. Qed.
Lemma lmono_step f :
  (forall s, lle (lread f s) (lread (S f) s)) /\ (forall op s, lle (lread_pair f op s) (lread_pair (S f) op s)) /\
  (forall op a s, lle (lread_rest f op a s) (lread_rest (S f) op a s)) /\ (forall acc s, lle (lread_vector f acc s) (lread_vector (S f) acc s)).
Proof.
  induction f as [|f (I1 & I2 & I3 & I4)]; [repeat split; intros; left; reflexivity|].
  repeat split; intros.
  - remember (S f) as f'. cbn [lread]. subst f'. cbn [lread]. destruct (lskip false s) as [|c q]; [apply lle_refl|].
    remember (S f) as f'.
    repeat match goal with
    | |- lle ?a ?a => apply lle_refl
    | |- lle (if ?b then _ else _) _ => destruct b
    | |- lle (match ?x with [] => _ | _ :: _ => _ end) _ => destruct x
    | |- lle (lbind _ _) _ => apply lle_bind; [|intros]
    | |- lle (LOk _ _) _ => apply lle_refl
    | |- _ => subst f'; apply I1 || apply I2 || apply I4
    end.
  - remember (S f) as f'. cbn [lread_pair]. subst f'. cbn [lread_pair]. destruct (lskip false s) as [|c q]; [apply lle_refl|].
    destruct (is_close c); [apply lle_refl|]. apply lle_bind; [apply I1|intros; apply I3].
  - remember (S f) as f'. cbn [lread_rest]. subst f'. cbn [lread_rest]. destruct (lskip false s) as [|c q]; [apply lle_refl|].
    destruct (beq c ".").
    + apply lle_bind; [apply I1|intros m k]. destruct (l_is_dot m); (apply lle_bind; [apply I1 || apply I3|intros; apply lle_refl]).
    + apply lle_bind; [apply I2|intros; apply lle_refl].
  - remember (S f) as f'. cbn [lread_vector]. subst f'. cbn [lread_vector]. destruct (lskip false s) as [|c q].
    + apply lle_bind; [apply I1|intros; apply I4].
    + destruct (beq c ")"); [apply lle_refl|]. apply lle_bind; [apply I1|intros; apply I4].
Qed.
Lemma lmono f g s r : lread f s = r -> r <> LFuel -> (f <= g)%nat -> lread g s = r.
Proof.
  intros E N. induction 1 as [|g L IH]; auto. destruct (proj1 (lmono_step g) s) as [K|K]; [congruence|]. rewrite <- K. exact IH.
Qed.
Lemma lread_det f g s r r' : lread f s = r -> lread g s = r' -> r <> LFuel -> r' <> LFuel -> r = r'.
Proof.
  intros E E' N N'. rewrite <- (lmono f (Nat.max f g) s r E N) by lia. apply (lmono g); auto. lia.
Qed.

(** ** What is left of the input *)
Definition suffix_of (k s : list byte) : Prop := exists t, s = t ++ k.
Lemma suffix_refl s : suffix_of s s. Proof. exists []. reflexivity. Qed.
Lemma suffix_trans a b c : suffix_of a b -> suffix_of b c -> suffix_of a c.
Proof. intros [t ->] [u ->]. exists (u ++ t). rewrite app_assoc. reflexivity. Qed.
Lemma suffix_cons c k s : suffix_of k s -> suffix_of k (c :: s).
Proof. intros [t ->]. exists (c :: t). reflexivity. Qed.
Lemma suffix_skip s : forall com, suffix_of (lskip com s) s.
Proof.
  induction s as [|c s IH]; intros com; [apply suffix_refl|]. simpl. destruct com.
  - destruct (beq c "010"); apply suffix_cons; auto.
  - destruct (lspace c); [apply suffix_cons; auto|]. destruct (beq c ";"); [apply suffix_cons; auto|apply suffix_refl].
Qed.
Lemma suffix_block s : forall lvl k, lblock lvl s = LOk tt k -> suffix_of k s.
Proof.
  assert (H : forall n s lvl k, (List.length s <= n)%nat -> lblock lvl s = LOk tt k -> suffix_of k s).
  { induction n as [|n IH]; intros [|c q] lvl k L E; try discriminate; [simpl in L; lia|]. simpl in L. cbn [lblock] in E.
    destruct (beq c "#"); [|destruct (beq c "|")].
    - destruct q as [|d q']; [discriminate|]. simpl in L. destruct (beq d "|").
      + apply suffix_cons, suffix_cons. apply (IH q' (S lvl)); auto. lia.
      + apply suffix_cons. apply (IH (d :: q') lvl); auto. simpl. lia.
    - destruct q as [|d q']; [discriminate|]. simpl in L. destruct (beq d "#").
      + destruct lvl; [injection E as <-; apply suffix_cons, suffix_cons, suffix_refl|]. apply suffix_cons, suffix_cons. apply (IH q' lvl); auto. lia.
      + apply suffix_cons. apply (IH (d :: q') lvl); auto. simpl. lia.
    - apply suffix_cons. apply (IH q lvl); auto. lia. }
  intros lvl k. apply (H (List.length s)). lia.
Qed.
Lemma suffix_expect name : forall s v o k, expect name s v = LOk o k -> suffix_of k s.
Proof.
  induction name as [|n ns IH]; intros s v o k E; simpl in E; [injection E as _ <-; apply suffix_refl|].
  destruct s as [|c q]; [discriminate|]. destruct (beq c n); [|discriminate]. apply suffix_cons. eapply IH; eauto.
Qed.
Lemma suffix_char s o k : lread_char s = LOk o k -> suffix_of k s.
Proof.
  destruct s as [|c q]; [discriminate|]. cbn [lread_char].
  assert (P : (if ldelim_ahead q then LOk (OChar c) q else LErr LDelim) = LOk o k -> suffix_of k (c :: q)).
  { destruct (ldelim_ahead q); intros E; [injection E as _ <-; apply suffix_cons, suffix_refl|discriminate]. }
  destruct (beq c "s"); [|destruct (beq c "n")]; auto; destruct q as [|d q']; auto;
    match goal with |- (if ?b then _ else _) = _ -> _ => destruct b end; auto; intros E; apply suffix_cons; eapply suffix_expect; eauto.
Qed.
Lemma suffix_symbol acc s o k : lread_symbol acc s = LOk o k -> suffix_of k s.
Proof.
  unfold lread_symbol. destruct (span lsymc s) as [t r] eqn:S. destruct (span_spec _ _ _ _ S) as [-> _]. intros E. injection E as _ <-. exists t. auto.
Qed.
Lemma suffix_number p v acc z s o k : lnumber p v acc z s = LOk o k -> suffix_of k s.
Proof.
  unfold lnumber. destruct (span p s) as [t r] eqn:S. destruct (span_spec _ _ _ _ S) as [-> _]. destruct (2 ^ 63 <=? v t)%N; [discriminate|].
  destruct r as [|c q]; [discriminate|]. intros E. apply suffix_trans with (c :: q); [|exists t; auto].
  destruct (lsymc c); [apply suffix_cons; eapply suffix_symbol; eauto|]. injection E as _ <-. apply suffix_refl.
Qed.
Lemma suffix_hex s o k : lread_hex s = LOk o k -> suffix_of k s.
Proof.
  unfold lread_hex. destruct s as [|c q]; [apply suffix_number|]. destruct (beq c "-"); [intros; apply suffix_cons; eapply suffix_number; eauto|].
  destruct (beq c "+"); [intros; apply suffix_cons; eapply suffix_number; eauto|]. apply suffix_number.
Qed.
Lemma suffix_string : forall n s acc b k, (List.length s <= n)%nat -> lread_string acc s = LOk b k -> suffix_of k s.
Proof.
  induction n as [|n IH]; intros [|c q] acc b k L E; try discriminate; [simpl in L; lia|]. simpl in L. cbn [lread_string] in E.
  destruct (beq c "\").
  - destruct q as [|e q']; [discriminate|]. simpl in L.
    repeat match type of E with (if ?b then _ else _) = _ => destruct b end; try discriminate; apply suffix_cons, suffix_cons; eapply IH; eauto; lia.
  - destruct (beq c """"); [injection E as _ <-; apply suffix_cons, suffix_refl|]. apply suffix_cons. eapply IH; eauto. lia.
Qed.
Lemma lbind_ok {A B} (r : lres A) (g : A -> list byte -> lres B) o k : lbind r g = LOk o k -> exists a k1, r = LOk a k1 /\ g a k1 = LOk o k.
Proof. destruct r; simpl; try discriminate. eauto. Qed.

(** The bracket that closes a list is found at its end. *)
Definition closed_by (op : byte) (k s : list byte) : Prop := exists t c, s = t ++ c :: k /\ matching op c = true.
Lemma closed_suffix op k s s' : closed_by op k s -> suffix_of s s' -> closed_by op k s'.
Proof. intros (t & c & -> & M) [u ->]. exists (u ++ t), c. rewrite <- app_assoc. auto. Qed.
Lemma closed_rest op k s : closed_by op k s -> suffix_of k s.
Proof. intros (t & c & -> & M). exists (t ++ [c]). rewrite <- app_assoc. reflexivity. Qed.
Lemma lsuffix f :
  (forall s o k, lread f s = LOk o k -> suffix_of k s) /\ (forall op s o k, lread_pair f op s = LOk o k -> closed_by op k s) /\
  (forall op a s o k, lread_rest f op a s = LOk o k -> closed_by op k s) /\ (forall acc s o k, lread_vector f acc s = LOk o k -> suffix_of k s).
Proof.
  induction f as [|f (I1 & I2 & I3 & I4)]; [repeat split; intros; discriminate|].
  repeat split; intros.
  - rename H into E. apply suffix_trans with (lskip false s); [|apply suffix_skip]. cbn [lread] in E.
    destruct (lskip false s) as [|c q]; [injection E as _ <-; apply suffix_refl|].
    repeat match type of E with
    | LErr _ = _ => discriminate
    | LOk _ _ = LOk _ _ => injection E as <- <-
    | (if ?b then _ else _) = _ => destruct b
    | match ?x with [] => _ | _ :: _ => _ end = _ => let Q := fresh "Q" in destruct x eqn:Q
    | lbind _ _ = _ => apply lbind_ok in E; destruct E as (? & ? & ? & E)
    | match ?x with OFix _ => _ | _ => _ end = _ => destruct x; try discriminate
    end;
    repeat match goal with
    | H : lread f _ = LOk _ _ |- _ => apply I1 in H
    | H : lread_pair f _ _ = LOk _ _ |- _ => apply I2, closed_rest in H
    | H : lread_vector f _ _ = LOk _ _ |- _ => apply I4 in H
    | H : lread_char _ = LOk _ _ |- _ => apply suffix_char in H
    | H : lread_hex _ = LOk _ _ |- _ => apply suffix_hex in H
    | H : lread_number _ = LOk _ _ |- _ => apply suffix_number in H
    | H : lread_symbol _ _ = LOk _ _ |- _ => apply suffix_symbol in H
    | H : lread_string _ _ = LOk _ _ |- _ => apply (suffix_string _ _ _ _ _ (le_n _)) in H
    | H : lblock _ _ = LOk ?u _ |- _ => destruct u; apply suffix_block in H
    | H : lskip false ?q = _ |- _ => assert (suffix_of (lskip false q) q) by apply suffix_skip; rewrite H in *; clear H
    end; eauto 8 using suffix_cons, suffix_refl, suffix_trans.
  - rename H into E. apply closed_suffix with (lskip false s); [|apply suffix_skip]. cbn [lread_pair] in E.
    destruct (lskip false s) as [|c q]; [discriminate|]. destruct (is_close c).
    + destruct (matching op c) eqn:M; [|discriminate]. injection E as _ <-. exists [], c. auto.
    + apply lbind_ok in E. destruct E as (a & k1 & R & E). apply I1 in R. apply I3 in E. eapply closed_suffix; eauto.
  - rename H into E. apply closed_suffix with (lskip false s); [|apply suffix_skip]. cbn [lread_rest] in E.
    destruct (lskip false s) as [|c q]; [discriminate|]. destruct (beq c ".").
    + apply lbind_ok in E. destruct E as (m & k1 & R & E). apply I1 in R. eapply closed_suffix; [|exact R]. destruct (l_is_dot m).
      * apply lbind_ok in E. destruct E as (b & k2 & R2 & E). apply I1 in R2. eapply closed_suffix; [|exact R2].
        eapply closed_suffix; [|apply (suffix_skip k2 false)]. destruct (lskip false k2) as [|d r]; [discriminate|].
        destruct (is_close d); [|discriminate]. destruct (matching op d) eqn:M; [|discriminate]. injection E as _ <-. exists [], d. auto.
      * apply lbind_ok in E. destruct E as (b & k2 & R2 & E). injection E as _ <-. eapply I3; eauto.
    + apply lbind_ok in E. destruct E as (b & k2 & R2 & E). injection E as _ <-. eapply I2; eauto.
  - rename H into E. apply suffix_trans with (lskip false s); [|apply suffix_skip]. cbn [lread_vector] in E.
    destruct (lskip false s) as [|c q].
    + apply lbind_ok in E. destruct E as (a & k1 & R & E). apply I1 in R. apply I4 in E. eapply suffix_trans; eauto.
    + destruct (beq c ")"); [injection E as _ <-; apply suffix_cons, suffix_refl|].
      apply lbind_ok in E. destruct E as (a & k1 & R & E). apply I1 in R. apply I4 in E. eapply suffix_trans; eauto.
Qed.

(** ** Trees of syntax objects *)
Lemma strip_to_stx o : strip (to_stx o) = strip o /\ strip (to_tail o) = strip o.
Proof.
  assert (V : forall l, Forall (fun o => strip (to_stx o) = strip o /\ strip (to_tail o) = strip o) l -> map strip (map to_stx l) = map strip l).
  { induction 1 as [|x l [H _] _ IH]; simpl; auto. rewrite H, IH. reflexivity. }
  induction o using obj_ind_strong; try (split; reflexivity).
  - destruct IHo1 as [A1 _], IHo2 as [_ A2]. rewrite to_stx_pair. cbn [to_tail strip]. rewrite A1, A2. auto.
  - cbn [to_tail to_stx strip]. rewrite (V _ H). auto.
  - destruct IHo as [A _]. cbn [to_tail to_stx strip]. rewrite A. auto.
Qed.
