(** The grammar of the texts that the reader accepts, and the proof that the
    reader of Reader.v accepts exactly this grammar. *)
From Coq Require Import ZArith NArith Bool Ascii String List Lia.
From Verif Require Import Base Decimal Reader.
Import ListNotations.
Local Open Scope list_scope.

(** ** Grammar

    [text o t k]: the text [t], when it is followed by [k], denotes the object
    [o].  The following text matters only for tokens that end at a delimiter. *)

Definition ends (k : list byte) : Prop := match k with [] => True | c :: _ => is_delim c = true end.

(** Whitespace and line comments; the last line comment may be ended by the end
    of the input. *)
Inductive ws : list byte -> list byte -> Prop :=
| WsNil k : ws [] k
| WsSpace c t k : is_space c = true -> ws t k -> ws (c :: t) k
| WsLine l t k : ~ In "010"%char l -> ws t k -> ws (";"%char :: l ++ "010"%char :: t) k
| WsLast l : ~ In "010"%char l -> ws (";"%char :: l) [].

(** Bodies of block comments: comments nest; a number sign or a bar is taken
    together with the character after it. *)
Inductive body : list byte -> Prop :=
| BNil : body []
| BChar c b : c <> "#"%char -> c <> "|"%char -> c <> xFF -> body b -> body (c :: b)
| BHash d b : d <> "|"%char -> d <> xFF -> body b -> body ("#"%char :: d :: b)
| BBar d b : d <> "#"%char -> d <> xFF -> body b -> body ("|"%char :: d :: b)
| BNest b1 b2 : body b1 -> body b2 -> body ("#"%char :: "|"%char :: b1 ++ "|"%char :: "#"%char :: b2).

(** The text between the quotes of a string, and the characters it stands for. *)
Inductive chars : list byte -> list byte -> Prop :=
| ChNil : chars [] []
| ChPlain c b t : c <> """"%char -> c <> "\"%char -> c <> xFF -> chars b t -> chars (c :: b) (c :: t)
| ChEsc e c b t : In (e, c) [("n"%char, "010"%char); ("t"%char, "009"%char); ("\"%char, "\"%char); ("'"%char, "'"%char); (""""%char, """"%char)] ->
    chars b t -> chars (c :: b) ("\"%char :: e :: t).

(** A token that starts like a symbol and not like a number, a string, a quote
    or a special datum. *)
Definition symbol_start (t : list byte) : Prop :=
  match t with
  | [] => False
  | c :: q =>
      is_digit c = false /\ c <> "'"%char /\
      (c = "#"%char -> exists q', q = "%"%char :: q') /\
      (c = "+"%char \/ c = "-"%char -> match q with d :: _ => is_digit d = false | [] => True end)
  end.

(** Numbers: decimal or, after #x, hexadecimal. *)
Definition digit (hex : bool) : byte -> bool := if hex then is_xdigit else is_digit.
Definition value (hex : bool) : list byte -> N := if hex then xdigits_value else digits_value.
Definition prefix (hex : bool) : list byte := if hex then s2b "#x" else [].
Inductive sign : list byte -> Z -> Prop := SgNone : sign [] 1 | SgPlus : sign ["+"%char] 1 | SgMinus : sign ["-"%char] (-1).
(** What the reader keeps of the first character in addition to the digits. *)
Definition kept (sg rest : list byte) : list byte :=
  match sg with
  | [] => match rest with c :: _ => [c] | [] => [] end
  | c :: _ => if beq c "-" then [c] else []
  end.

Inductive text : obj -> list byte -> list byte -> Prop :=
| TCore w o t k : ws w (t ++ k) -> core o t k -> text o (w ++ t) k
| TBlock w b o t k : ws w (s2b "#|" ++ b ++ s2b "|#" ++ t ++ k) -> body b -> text o t k -> text o (w ++ s2b "#|" ++ b ++ s2b "|#" ++ t) k
| TDatum w v c t1 d o t k :
    ws w (s2b "#;" ++ v ++ (c :: t1) ++ t ++ k) -> ws v ((c :: t1) ++ t ++ k) -> is_space c = false -> c <> ";"%char -> c <> xFF ->
    text d (c :: t1) (t ++ k) -> text o t k -> text o (w ++ s2b "#;" ++ v ++ (c :: t1) ++ t) k
with core : obj -> list byte -> list byte -> Prop :=
| CEnd : core no_object [] []
| CTrue k : core OTrue (s2b "#t") k
| CFalse k : core OFalse (s2b "#f") k
| CChar c k : c <> xFF -> ends k -> core (OChar c) (s2b "#\" ++ [c]) k
| CNamed c n v k : In (c, n, v) char_names -> ends k -> core (OChar v) (s2b "#\" ++ c :: n) k
| CQuote o t k : text o t k -> core (quote_form "quote" o) ("'"%char :: t) k
| CQuoteStx o t k : text o t k -> core (quote_form "quote-syntax" o) (s2b "#'" ++ t) k
| CBox o t k : text o t k -> core (OBox o) (s2b "#&" ++ t) k
| CVec l t k : elems l t k -> core (match l with [] => OEmptyVec | _ => OVec l end) (s2b "#(" ++ t) k
| CNum hex sg z ds k : sign sg z -> Forall (fun c => digit hex c = true) ds -> (hex = false -> ds <> []) -> (value hex ds < 2 ^ 63)%N ->
    (lenN (kept sg ds ++ ds) <= buffer_size)%N -> ends k ->
    core (OFix (z * Z.of_N (value hex ds))) (prefix hex ++ sg ++ ds) k
| COdd hex sg z ds c w k : sign sg z -> Forall (fun c => digit hex c = true) ds -> (hex = false -> ds <> []) -> (value hex ds < 2 ^ 63)%N ->
    digit hex c = false -> Forall (fun c => is_symc c = true) (c :: w) -> (sg = [] -> ds = [] -> c <> "+"%char /\ c <> "-"%char) ->
    (lenN (kept sg (ds ++ c :: w) ++ ds ++ c :: w) < buffer_size)%N -> ends k ->
    core (OSym (cstr (kept sg (ds ++ c :: w) ++ ds ++ c :: w))) (prefix hex ++ sg ++ ds ++ c :: w) k
| CStr b t k : chars b t -> (lenN b < buffer_size)%N -> core (OStr (cstr b)) (""""%char :: t ++ [""""%char]) k
| CList open o t k : is_open open = true -> items open o t k -> core o (open :: t) k
| CSym t k : Forall (fun c => is_symc c = true) t -> symbol_start t -> (lenN t < buffer_size)%N -> ends k -> core (OSym (cstr t)) t k
(** What follows an opening bracket, with the closing bracket. *)
with items : byte -> obj -> list byte -> list byte -> Prop :=
| IEnd open w closed k : ws w (closed :: k) -> matching open closed = true -> items open ONull (w ++ [closed]) k
| ICons open a t1 b t2 k :
    text a t1 (t2 ++ k) -> items open b t2 k ->
    (forall w e r, t2 ++ k = w ++ "."%char :: e :: r -> ws w ("."%char :: e :: r) -> is_space e = false) ->
    items open (OPair a b) (t1 ++ t2) k
| IDot open a t1 w e b t2 v closed k :
    text a t1 (w ++ "."%char :: (e :: t2) ++ v ++ closed :: k) -> ws w ("."%char :: (e :: t2) ++ v ++ closed :: k) -> is_space e = true ->
    text b (e :: t2) (v ++ closed :: k) -> ws v (closed :: k) -> matching open closed = true ->
    items open (OPair a b) (t1 ++ w ++ "."%char :: (e :: t2) ++ v ++ [closed]) k
(** What follows the opening bracket of a vector. *)
with elems : list obj -> list byte -> list byte -> Prop :=
| ENil w k : ws w (")"%char :: k) -> ends k -> elems [] (w ++ [")"%char]) k
| ECons o t1 l t2 k : text o t1 (t2 ++ k) -> elems l t2 k -> elems (o :: l) (t1 ++ t2) k.

Scheme text_min := Minimality for text Sort Prop
  with core_min := Minimality for core Sort Prop
  with items_min := Minimality for items Sort Prop
  with elems_min := Minimality for elems Sort Prop.
Combined Scheme grammar_ind from text_min, core_min, items_min, elems_min.

(** ** Characters *)
Lemma beq_refl c : beq c c = true. Proof. apply Ascii.eqb_refl. Qed.
Lemma beq_eq a b : beq a b = true <-> a = b. Proof. apply Ascii.eqb_eq. Qed.
Lemma beq_ne a b : beq a b = false <-> a <> b. Proof. apply Ascii.eqb_neq. Qed.

(** Properties of all 256 characters are checked by computation. *)
Definition all_bytes (p : byte -> bool) : bool :=
  forallb p (map ascii_of_N (map N.of_nat (seq 0 256))).
Lemma all_bytes_ok p : all_bytes p = true -> forall c, p c = true.
Proof.
  intros H c. unfold all_bytes in H. rewrite forallb_forall in H. apply H.
  apply in_map_iff. exists (N_of_ascii c). split; [apply ascii_N_embedding|].
  apply in_map_iff. exists (N.to_nat (N_of_ascii c)). split; [apply N2Nat.id|].
  apply in_seq. assert (X := N_ascii_bounded c). lia.
Qed.
Ltac bytes_check p := let H := fresh in assert (H := all_bytes_ok p ltac:(vm_compute; reflexivity)); cbv beta in H; apply H.
Lemma impl_true a b : implb a b = true -> a = true -> b = true. Proof. destruct a, b; auto. Qed.

Lemma space_delim c : is_space c = true -> is_delim c = true.
Proof. apply impl_true. bytes_check (fun c => implb (is_space c) (is_delim c)). Qed.
Lemma delim_symc c : is_delim c = true -> is_symc c = false.
Proof. unfold is_symc. intros ->. reflexivity. Qed.
Lemma ends_delim k : ends k -> delim_ahead k = true.
Proof. destruct k as [|c q]; simpl; auto. intros H. rewrite (delim_symc _ H). reflexivity. Qed.
Lemma delim_ends k : ~ In xFF k -> delim_ahead k = true -> ends k.
Proof.
  destruct k as [|c q]; simpl; auto. intros NF H. unfold is_symc in H.
  destruct (is_delim c); auto. destruct (beq c xFF) eqn:E; [|discriminate]. apply beq_eq in E. subst. tauto.
Qed.

(** ** Whitespace *)
Lemma skip_comment l s : ~ In "010"%char l -> skip true (l ++ s) = skip true s.
Proof.
  induction l as [|c l IH]; simpl; auto. intros H. destruct (beq c "010") eqn:E; [apply beq_eq in E; subst; tauto|]. apply IH. tauto.
Qed.
Lemma skip_comment_end l : ~ In "010"%char l -> skip true l = [].
Proof. intros H. rewrite <- (app_nil_r l), (skip_comment _ _ H). reflexivity. Qed.
Lemma skip_ws w k : ws w k -> skip false (w ++ k) = skip false k.
Proof.
  induction 1 as [|c t k S _ IH|l t k N _ IH|l N]; auto.
  - simpl. rewrite S. exact IH.
  - change ((";"%char :: l ++ "010"%char :: t) ++ k) with (";"%char :: (l ++ "010"%char :: t) ++ k). rewrite <- app_assoc.
    cbn -[skip]. change (skip false (";"%char :: l ++ "010"%char :: t ++ k)) with (skip true (l ++ "010"%char :: t ++ k)).
    rewrite (skip_comment _ _ N). simpl. exact IH.
  - rewrite app_nil_r. simpl. apply skip_comment_end. exact N.
Qed.
(** A text that does not start with whitespace or a comment. *)
Definition solid (s : list byte) : Prop := match s with [] => True | c :: _ => is_space c = false /\ c <> ";"%char end.
Lemma skip_solid s : solid s -> skip false s = s.
Proof. destruct s as [|c q]; simpl; auto. intros [H N]. rewrite H. rewrite (proj2 (beq_ne _ _) N). reflexivity. Qed.
Lemma skip_split : forall s, (exists w, s = w ++ skip false s /\ ws w (skip false s) /\ solid (skip false s)) /\
  ((exists l w, s = l ++ "010"%char :: w ++ skip true s /\ ~ In "010"%char l /\ ws w (skip true s) /\ solid (skip true s)) \/
   (skip true s = [] /\ ~ In "010"%char s)).
Proof.
  induction s as [|c s [IH1 IH2]].
  - split; [exists []; repeat split; constructor|]. right. simpl. auto.
  - split.
    + simpl. destruct (is_space c) eqn:S.
      * destruct IH1 as [w [E [W D]]]. exists (c :: w). simpl. rewrite <- E. split; auto. split; auto. constructor; auto.
      * destruct (beq c ";") eqn:C.
        -- apply beq_eq in C. subst c. destruct IH2 as [[l [w [E [N [W D]]]]]|[E N]].
           ++ exists (";"%char :: l ++ "010"%char :: w). split; [simpl; rewrite <- app_assoc; simpl; f_equal; exact E|]. split; auto. apply WsLine; auto.
           ++ exists (";"%char :: s). rewrite E. split; [rewrite app_nil_r; auto|]. split; [apply WsLast; auto|exact Logic.I].
        -- exists []. split; auto. split; [constructor|]. split; auto. apply beq_ne. exact C.
    + simpl. destruct (beq c "010") eqn:C.
      * apply beq_eq in C. subst c. left. destruct IH1 as [w [E [W D]]]. exists [], w. simpl. rewrite <- E. auto.
      * apply beq_ne in C. destruct IH2 as [[l [w [E [N [W D]]]]]|[E N]].
        -- left. exists (c :: l), w. split; [simpl; f_equal; exact E|]. split; auto. intros [K|K]; [congruence|tauto].
        -- right. split; auto. intros [K|K]; [congruence|tauto].
Qed.
Lemma skip_spec s : exists w, s = w ++ skip false s /\ ws w (skip false s) /\ solid (skip false s).
Proof. apply skip_split. Qed.

(** ** Tokens *)
Definition stops (p : byte -> bool) (k : list byte) : Prop := match k with [] => True | c :: _ => p c = false end.
Lemma span_app p t k : Forall (fun c => p c = true) t -> stops p k -> span p (t ++ k) = (t, k).
Proof.
  induction 1 as [|c t H _ IH]; simpl; intros S.
  - destruct k as [|c q]; simpl in *; auto. rewrite S. reflexivity.
  - rewrite H, (IH S). reflexivity.
Qed.
Lemma span_spec p s : forall a b, span p s = (a, b) -> s = a ++ b /\ Forall (fun c => p c = true) a /\ stops p b.
Proof.
  induction s as [|c s IH]; simpl; intros a b E.
  - injection E as <- <-. repeat split; auto.
  - destruct (p c) eqn:P.
    + destruct (span p s) as [a' b'] eqn:S. injection E as <- <-. destruct (IH _ _ eq_refl) as [-> [F T]]. repeat split; auto.
    + injection E as <- <-. repeat split; auto.
Qed.
Lemma ends_stops k : ends k -> stops is_symc k.
Proof. destruct k as [|c q]; simpl; auto. apply delim_symc. Qed.
Lemma stops_ends k : ~ In xFF k -> stops is_symc k -> ends k.
Proof. intros N S. apply delim_ends; auto. destruct k as [|c q]; simpl in *; auto. rewrite S. reflexivity. Qed.
Lemma xFF_not_delim : is_delim xFF = false. Proof. reflexivity. Qed.
Lemma ends_unget k : ends k -> unget_char k = k.
Proof.
  destruct k as [|c q]; simpl; auto. intros H. destruct (beq c xFF) eqn:E; auto. apply beq_eq in E. subst. discriminate.
Qed.
Lemma unget_noFF k : ~ In xFF k -> unget_char k = k.
Proof. destruct k as [|c q]; simpl; auto. intros N. destruct (beq c xFF) eqn:E; auto. apply beq_eq in E. subst. tauto. Qed.
Lemma noFF_app (a b : list byte) : ~ In xFF (a ++ b) -> ~ In xFF a /\ ~ In xFF b.
Proof. intros N. split; intros I; apply N, in_app_iff; auto. Qed.

Lemma symbol_ok buf t k : Forall (fun c => is_symc c = true) t -> ends k -> (lenN (buf ++ t) < buffer_size)%N ->
  read_symbol buf (t ++ k) = ROk (OSym (cstr (buf ++ t))) k.
Proof.
  intros F E L. unfold read_symbol. rewrite (span_app _ _ _ F (ends_stops _ E)).
  destruct (N.ltb_spec buffer_size (lenN (buf ++ t))); [lia|]. destruct (N.eqb_spec (lenN (buf ++ t)) buffer_size); [lia|].
  rewrite (ends_unget _ E). reflexivity.
Qed.
Lemma symbol_inv buf s o k : ~ In xFF s -> read_symbol buf s = ROk o k ->
  exists t, s = t ++ k /\ Forall (fun c => is_symc c = true) t /\ ends k /\ (lenN (buf ++ t) < buffer_size)%N /\ o = OSym (cstr (buf ++ t)).
Proof.
  intros N. unfold read_symbol. destruct (span is_symc s) as [t r] eqn:S. destruct (span_spec _ _ _ _ S) as [-> [F T]].
  destruct (noFF_app _ _ N) as [_ N2]. rewrite (unget_noFF _ N2).
  destruct (N.ltb_spec buffer_size (lenN (buf ++ t))); [discriminate|]. destruct (N.eqb_spec (lenN (buf ++ t)) buffer_size); [discriminate|].
  intros E. injection E as <- <-. exists t. repeat split; auto; [apply stops_ends; auto|lia].
Qed.

Lemma digit_symc hex c : digit hex c = true -> is_symc c = true.
Proof.
  destruct hex; simpl; apply impl_true.
  - bytes_check (fun c => implb (is_xdigit c) (is_symc c)).
  - bytes_check (fun c => implb (is_digit c) (is_symc c)).
Qed.
Lemma digit_sign hex c : digit hex c = true -> c <> "+"%char /\ c <> "-"%char /\ c <> xFF.
Proof. destruct hex; intros H; repeat split; intros ->; discriminate. Qed.
Lemma ends_digit hex k : ends k -> stops (digit hex) k.
Proof.
  intros E. apply ends_stops in E. destruct k as [|c q]; simpl in *; auto. destruct (digit hex c) eqn:D; auto.
  apply digit_symc in D. congruence.
Qed.

(** read_dec and read_hex in one. *)
Definition read_num (hex : bool) (c : option byte) (s : list byte) : rres obj :=
  let (ds, rest) := span (digit hex) (unsigned_of c s) in
  number_tail (sign_of c) (buf_of c) ds rest (value hex ds).
Lemma read_dec_num c s : read_dec c s = read_num false (Some c) s. Proof. reflexivity. Qed.
Lemma read_hex_num s : read_hex s = match s with [] => read_num true None [] | c :: q => read_num true (Some c) q end.
Proof. destruct s; reflexivity. Qed.

Definition first (s : list byte) : option byte := match s with [] => None | c :: _ => Some c end.
Lemma tail_num sg buf ds k v : (v < 2 ^ 63)%N -> (lenN (buf ++ ds) <= buffer_size)%N -> ends k ->
  number_tail sg buf ds k v = ROk (OFix (sg * Z.of_N v)) k.
Proof.
  intros V L E. unfold number_tail. destruct (N.ltb_spec buffer_size (lenN (buf ++ ds))); [lia|].
  destruct (N.leb_spec (2 ^ 63) v); [lia|]. destruct k as [|c q]; auto. assert (S := ends_stops _ E). simpl in S. rewrite S.
  rewrite (ends_unget _ E). reflexivity.
Qed.
Lemma tail_odd sg buf ds c w k v : (v < 2 ^ 63)%N -> Forall (fun c => is_symc c = true) (c :: w) -> ends k ->
  (lenN (buf ++ ds ++ c :: w) < buffer_size)%N ->
  number_tail sg buf ds ((c :: w) ++ k) v = ROk (OSym (cstr (buf ++ ds ++ c :: w))) k.
Proof.
  intros V F E L. unfold number_tail. rewrite app_assoc in L |- *. assert (L' := L). unfold lenN in L'. rewrite app_length in L'.
  destruct (N.ltb_spec buffer_size (lenN (buf ++ ds))) as [K|K]; [unfold lenN in K; lia|].
  destruct (N.leb_spec (2 ^ 63) v); [lia|]. cbn [app]. inversion F; subst. rewrite H2.
  change (c :: w ++ k) with ((c :: w) ++ k). apply symbol_ok; auto.
Qed.
(** A number or an odd symbol is read from its first character on. *)
Lemma num_first hex sg z ds k :
  sign sg z -> Forall (fun c => digit hex c = true) ds -> (hex = false -> ds <> []) -> ends k ->
  exists c, sign_of c = z /\ span (digit hex) (unsigned_of c (tl (sg ++ ds ++ k))) = (ds, k) /\ first (sg ++ ds ++ k) = c /\
    (lenN (kept sg ds ++ ds) <= buffer_size -> lenN (buf_of c ++ ds) <= buffer_size)%N.
Proof.
  intros S F D E. assert (SP := span_app _ _ _ F (ends_digit hex _ E)). exists (first (sg ++ ds ++ k)). inversion S; subst.
  - destruct ds as [|d ds]; simpl app.
    + destruct k as [|c q]; simpl.
      * repeat split; auto; intros _; vm_compute; discriminate.
      * simpl in E. assert (K : c <> "+"%char /\ c <> "-"%char /\ c <> xFF) by (repeat split; intros ->; discriminate).
        destruct K as [K1 [K2 K3]]. apply beq_ne in K1, K2, K3. rewrite K1, K2, K3. simpl. repeat split; auto; intros _; vm_compute; discriminate.
    + inversion F; subst. destruct (digit_sign _ _ H1) as [K1 [K2 K3]]. apply beq_ne in K1, K2, K3. simpl. rewrite K1, K2, K3. simpl.
      repeat split; auto.
  - simpl. repeat split; auto.
  - simpl. repeat split; auto.
Qed.
Lemma odd_first hex sg z ds c w k :
  sign sg z -> Forall (fun c => digit hex c = true) ds -> (hex = false -> ds <> []) -> digit hex c = false -> is_symc c = true ->
  (sg = [] -> ds = [] -> c <> "+"%char /\ c <> "-"%char) ->
  exists c0, first (sg ++ ds ++ (c :: w) ++ k) = Some c0 /\ sign_of (Some c0) = z /\
    span (digit hex) (unsigned_of (Some c0) (tl (sg ++ ds ++ (c :: w) ++ k))) = (ds, (c :: w) ++ k) /\
    kept sg (ds ++ c :: w) = buf_of (Some c0).
Proof.
  intros S F D C Y X. assert (SP := span_app (digit hex) ds ((c :: w) ++ k) F C).
  inversion S; subst.
  - destruct ds as [|d ds]; simpl app.
    + exists c. destruct (X eq_refl eq_refl) as [K1 K2]. assert (K3 : c <> xFF) by (intros ->; discriminate).
      apply beq_ne in K1, K2, K3. simpl. rewrite K1, K2, K3. simpl in SP. repeat split; auto.
    + exists d. inversion F; subst. destruct (digit_sign _ _ H1) as [K1 [K2 K3]]. apply beq_ne in K1, K2, K3. simpl. rewrite K1, K2, K3. simpl.
      repeat split; auto.
  - exists "+"%char. simpl. repeat split; auto.
  - exists "-"%char. simpl. repeat split; auto.
Qed.
Lemma num_ok hex sg z ds k c s :
  sign sg z -> Forall (fun c => digit hex c = true) ds -> (hex = false -> ds <> []) -> (value hex ds < 2 ^ 63)%N ->
  (lenN (kept sg ds ++ ds) <= buffer_size)%N -> ends k ->
  first (sg ++ ds ++ k) = c -> tl (sg ++ ds ++ k) = s -> read_num hex c s = ROk (OFix (z * Z.of_N (value hex ds))) k.
Proof.
  intros S F D V L E C T. destruct (num_first hex sg z ds k S F D E) as [c' [SG [SP [C' LK]]]]. unfold read_num. subst s.
  rewrite <- C, C', SP. rewrite tail_num; auto. rewrite SG. reflexivity.
Qed.
Lemma odd_ok hex sg z ds c w k c0 s :
  sign sg z -> Forall (fun c => digit hex c = true) ds -> (hex = false -> ds <> []) -> (value hex ds < 2 ^ 63)%N -> digit hex c = false ->
  Forall (fun c => is_symc c = true) (c :: w) -> (sg = [] -> ds = [] -> c <> "+"%char /\ c <> "-"%char) ->
  (lenN (kept sg (ds ++ c :: w) ++ ds ++ c :: w) < buffer_size)%N -> ends k ->
  first (sg ++ ds ++ (c :: w) ++ k) = Some c0 -> tl (sg ++ ds ++ (c :: w) ++ k) = s ->
  read_num hex (Some c0) s = ROk (OSym (cstr (kept sg (ds ++ c :: w) ++ ds ++ c :: w))) k.
Proof.
  intros S F D V C Y X L E C0 T. assert (Y1 : is_symc c = true) by (inversion Y; auto).
  destruct (odd_first hex sg z ds c w k S F D C Y1 X) as [c' [C' [SG [SP KP]]]]. unfold read_num. subst s.
  assert (c' = c0) by congruence. subst c'. rewrite SP, SG. rewrite KP in L |- *. rewrite tail_odd; auto.
Qed.
(** The converse. *)
Lemma num_inv hex c s o k :
  ~ In xFF (c :: s) ->
  (hex = false -> is_digit c = true \/ ((c = "-"%char \/ c = "+"%char) /\ exists d q, s = d :: q /\ is_digit d = true)) ->
  read_num hex (Some c) s = ROk o k -> exists t, c :: s = t ++ k /\ core o (prefix hex ++ t) k.
Proof.
  intros N D R. unfold read_num in R.
  assert (N1 : beq c xFF = false) by (apply beq_ne; intros ->; apply N; left; auto).
  assert (NS : ~ In xFF s) by (intros K; apply N; right; exact K).
  destruct (span (digit hex) (unsigned_of (Some c) s)) as [ds rest] eqn:SP. destruct (span_spec _ _ _ _ SP) as [E [F T]].
  assert (SG : exists sg z, sign sg z /\ sign_of (Some c) = z /\ c :: s = sg ++ ds ++ rest /\ kept sg (ds ++ rest) = buf_of (Some c) /\
                      (sg = [] -> c <> "+"%char /\ c <> "-"%char) /\ (hex = false -> ds <> [])).
  { unfold unsigned_of in E. simpl. destruct (beq c "-") eqn:M.
    - apply beq_eq in M. subst c. exists ["-"%char], (-1)%Z. simpl in E. subst s. repeat split; try (constructor || reflexivity || discriminate).
      intros H. destruct (D H) as [K|[_ [d [q [Q K]]]]]; [discriminate|]. destruct ds; [|discriminate]. simpl in Q. subst rest. subst hex.
      simpl in T. congruence.
    - destruct (beq c "+") eqn:P.
      + apply beq_eq in P. subst c. exists ["+"%char], 1%Z. simpl in E. subst s. repeat split; try (constructor || reflexivity || discriminate).
        intros H. destruct (D H) as [K|[_ [d [q [Q K]]]]]; [discriminate|]. destruct ds; [|discriminate]. simpl in Q. subst rest. subst hex.
        simpl in T. congruence.
      + rewrite N1 in E. simpl in E. exists [], 1%Z. simpl app. rewrite <- E. apply beq_ne in M, P.
        split; [constructor|]. repeat split; auto. intros H K. subst ds hex. simpl in E. subst rest. simpl in T.
        destruct (D eq_refl) as [K|[[K|K] _]]; congruence. }
  destruct SG as [sg [z [S [SZ [CS [KP [SN DN]]]]]]]. rewrite SZ in R. unfold number_tail in R.
  destruct (N.ltb_spec buffer_size (lenN (buf_of (Some c) ++ ds))) as [|L]; [discriminate|].
  destruct (N.leb_spec (2 ^ 63) (value hex ds)) as [|V]; [discriminate|].
  assert (NR : ~ In xFF rest). { intros K. apply N. rewrite CS. apply in_or_app. right. apply in_or_app. auto. }
  assert (KD : (lenN (kept sg ds ++ ds) <= buffer_size)%N).
  { unfold lenN in *. rewrite app_length in *. inversion S; subst; simpl in *; try (rewrite <- KP in L; simpl in L; lia).
    destruct ds as [|d ds]; simpl in *; [lia|]. rewrite <- KP in L. simpl in L. lia. }
  destruct rest as [|d r].
  - injection R as <- <-. exists (sg ++ ds). split; [rewrite CS, !app_nil_r; auto|]. eapply CNum; eauto; exact Logic.I.
  - destruct (is_symc d) eqn:Y.
    + destruct (symbol_inv _ _ _ _ NR R) as [t [Q [FT [EK [LT ->]]]]].
      destruct t as [|d' w]. { simpl in Q. subst k. simpl in EK. apply delim_symc in EK. congruence. }
      simpl in Q. injection Q as <- ->. exists (sg ++ ds ++ d :: w). split; [rewrite CS, <- !app_assoc; auto|].
      assert (KP2 : kept sg (ds ++ d :: w) = buf_of (Some c)).
      { rewrite <- KP. inversion S; subst; auto. destruct ds; reflexivity. }
      rewrite <- app_assoc. rewrite <- app_assoc in LT. rewrite <- KP2 in LT |- *. eapply COdd; eauto.
      intros Hs Hd. destruct (SN Hs). subst sg ds. simpl in CS. injection CS as -> _. auto.
    + rewrite (unget_noFF _ NR) in R. injection R as <- <-. exists (sg ++ ds). split; [rewrite CS, <- app_assoc; auto|].
      eapply CNum; eauto. apply stops_ends; auto.
Qed.
(** #x at the end of the input. *)
Lemma hex_nil : read_hex [] = ROk (OFix 0) []. Proof. reflexivity. Qed.

(** ** Characters, strings, block comments *)
Lemma named_ok n v k : ends k -> read_named n (n ++ k) v = ROk (OChar v) k.
Proof.
  intros E. induction n as [|c n IH]; simpl.
  - destruct k as [|c q]; auto. rewrite (ends_delim _ E). reflexivity.
  - rewrite beq_refl. exact IH.
Qed.
Lemma named_inv n : forall s v o k, ~ In xFF s -> read_named n s v = ROk o k -> s = n ++ k /\ o = OChar v /\ ends k.
Proof.
  induction n as [|c n IH]; intros s v o k N; simpl.
  - destruct s as [|c q]; [intros E; injection E as <- <-; repeat split|].
    destruct (delim_ahead (c :: q)) eqn:D; [|discriminate]. intros E. injection E as <- <-. repeat split. apply delim_ends; auto.
  - destruct s as [|d q]; [discriminate|]. destruct (beq c d) eqn:E; [|discriminate]. apply beq_eq in E. subst d.
    intros R. destruct (IH q v o k) as [-> [-> K]]; auto. intros I. apply N. right. exact I.
Qed.
Lemma find_name_in tbl c nc n v : find_name tbl c nc = Some (n, v) -> In (c, n, v) tbl /\ first n = Some nc.
Proof.
  induction tbl as [|[[c1 m] x] q IH]; simpl; [discriminate|].
  destruct (beq c c1) eqn:C; simpl.
  - destruct m as [|m1 m]; simpl; [intros E; destruct (IH E); auto|].
    destruct (beq nc m1) eqn:M; [|intros E; destruct (IH E); auto].
    intros E. injection E as <- <-. apply beq_eq in C, M. subst. auto.
  - intros E. destruct (IH E). auto.
Qed.
Lemma names_second : Forall (fun x => match first (snd (fst x)) with Some c => is_symc c = true | None => False end) char_names.
Proof. repeat constructor. Qed.
Lemma find_name_ends c k q : ends (k :: q) -> find_name char_names c k = None.
Proof.
  intros E. destruct (find_name char_names c k) as [[n v]|] eqn:F; auto. exfalso. apply find_name_in in F. destruct F as [I F].
  assert (H := proj1 (Forall_forall _ _) names_second _ I). simpl in H. rewrite F in H. simpl in E. apply delim_symc in E. congruence.
Qed.
Lemma char_ok c k : c <> xFF -> ends k -> read_char (c :: k) = ROk (OChar c) k.
Proof.
  intros C E. unfold read_char. rewrite (proj2 (beq_ne _ _) C). destruct k as [|d q]; auto.
  rewrite (find_name_ends c d q E), (ends_delim _ E). reflexivity.
Qed.
Lemma named_found c n v : In (c, n, v) char_names -> exists nc n', n = nc :: n' /\ find_name char_names c nc = Some (n, v) /\ c <> xFF.
Proof.
  intros H. repeat (destruct H as [H|H]; [injection H as <- <- <-; simpl; eexists; eexists; split; [reflexivity|split; [reflexivity|discriminate]]|]). destruct H.
Qed.
Lemma char_named_ok c n v k : In (c, n, v) char_names -> ends k -> read_char ((c :: n) ++ k) = ROk (OChar v) k.
Proof.
  intros H E. destruct (named_found _ _ _ H) as [nc [n' [-> [F C]]]]. unfold read_char. cbn [app]. rewrite (proj2 (beq_ne _ _) C), F.
  apply (named_ok (nc :: n') v k E).
Qed.
Lemma char_inv s o k : ~ In xFF s -> read_char s = ROk o k -> exists t, s = t ++ k /\ core o (s2b "#\" ++ t) k /\
  (forall c q, s = c :: q -> is_symc c = false -> t = [c] /\ ends k).
Proof.
  intros N. unfold read_char. destruct s as [|c q]; [discriminate|]. destruct (beq c xFF) eqn:C; [discriminate|]. apply beq_ne in C.
  assert (NQ : ~ In xFF q) by (intros I; apply N; right; exact I).
  destruct (match q with nc :: _ => find_name char_names c nc | [] => None end) as [[n v]|] eqn:F.
  - destruct q as [|nc q]; [discriminate|]. apply find_name_in in F. destruct F as [I _]. intros R.
    destruct (named_inv _ _ _ _ _ NQ R) as [E [-> K]]. exists (c :: n). split; [simpl; f_equal; exact E|]. split; [apply CNamed; auto|].
    intros c' q' E' Y. injection E' as <- <-. exfalso.
    assert (H : Forall (fun x => is_symc (fst (fst x)) = true) char_names) by (repeat constructor).
    assert (Z := proj1 (Forall_forall _ _) H _ I). simpl in Z. congruence.
  - destruct q as [|d q].
    + intros E. injection E as <- <-. exists [c]. split; auto. split; [apply CChar; simpl; auto|]. intros ? ? [= <- <-] _. simpl. auto.
    + destruct (delim_ahead (d :: q)) eqn:D; [|discriminate]. intros E. injection E as <- <-. exists [c]. split; auto.
      assert (K : ends (d :: q)) by (apply delim_ends; auto). split; [apply CChar; auto|]. intros ? ? [= <- <-] _. auto.
Qed.

Lemma escape_ok e c : In (e, c) [("n"%char, "010"%char); ("t"%char, "009"%char); ("\"%char, "\"%char); ("'"%char, "'"%char); (""""%char, """"%char)] <-> escape e = Some c.
Proof.
  split.
  - intros H. repeat (destruct H as [H|H]; [injection H as <- <-; reflexivity|]). destruct H.
  - unfold escape. destruct (beq e "n") eqn:E1; [apply beq_eq in E1; intros [= <-]; subst; simpl; auto|].
    destruct (beq e "t") eqn:E2; [apply beq_eq in E2; intros [= <-]; subst; simpl; auto|].
    destruct (beq e "\") eqn:E3; [apply beq_eq in E3; intros [= <-]; subst; simpl; auto 10|].
    destruct (beq e "'") eqn:E4; [apply beq_eq in E4; intros [= <-]; subst; simpl; auto 10|].
    destruct (beq e """") eqn:E5; [apply beq_eq in E5; intros [= <-]; subst; simpl; auto 10|]. discriminate.
Qed.
Lemma string_ok b t : chars b t -> forall buf k, (lenN (buf ++ b) < buffer_size)%N ->
  read_string buf (t ++ """"%char :: k) = ROk (OStr (cstr (buf ++ b))) k.
Proof.
  induction 1 as [|c b t Q S F _ IH|e c b t I _ IH]; intros buf k L.
  - rewrite app_nil_r in *. simpl. destruct (N.eqb_spec (lenN buf) buffer_size); [lia|]. reflexivity.
  - simpl. apply beq_ne in Q, S, F. rewrite Q, F, S.
    assert (L' := L). unfold lenN in L'. rewrite app_length in L'. simpl in L'. destruct (N.leb_spec buffer_size (lenN buf)) as [K|K]; [unfold lenN in K; lia|].
    rewrite IH; rewrite <- app_assoc; auto.
  - simpl. rewrite (proj1 (escape_ok e c) I).
    assert (L' := L). unfold lenN in L'. rewrite app_length in L'. simpl in L'. destruct (N.leb_spec buffer_size (lenN buf)) as [K|K]; [unfold lenN in K; lia|].
    rewrite IH; rewrite <- app_assoc; auto.
Qed.
Lemma string_inv n : forall s buf o k, (List.length s <= n)%nat -> read_string buf s = ROk o k -> (lenN buf <= buffer_size)%N ->
  exists b t, s = t ++ """"%char :: k /\ chars b t /\ (lenN (buf ++ b) < buffer_size)%N /\ o = OStr (cstr (buf ++ b)).
Proof.
  induction n as [|n IH]; intros s buf o k L R LB; destruct s as [|c q]; simpl in *; try discriminate; try lia.
  destruct (beq c """") eqn:Q.
  - apply beq_eq in Q. subst c. destruct (N.eqb_spec (lenN buf) buffer_size); [discriminate|]. injection R as <- <-.
    exists [], []. rewrite app_nil_r. repeat split; [constructor|lia].
  - destruct (beq c xFF) eqn:F; [discriminate|]. destruct (beq c "\") eqn:S.
    + apply beq_eq in S. subst c. destruct q as [|e q']; [discriminate|]. destruct (escape e) as [x|] eqn:E; [|discriminate].
      destruct (N.leb_spec buffer_size (lenN buf)) as [K|K]; [discriminate|].
      destruct (IH q' (buf ++ [x]) o k) as [b [t [-> [C [LB' ->]]]]]; [simpl in L; lia|exact R|unfold lenN in *; rewrite app_length; simpl; lia|].
      rewrite <- app_assoc in *. exists (x :: b), ("\"%char :: e :: t). repeat split; auto. constructor; auto. apply escape_ok. exact E.
    + destruct (N.leb_spec buffer_size (lenN buf)) as [K|K]; [discriminate|].
      destruct (IH q (buf ++ [c]) o k) as [b [t [-> [C [LB' ->]]]]]; [simpl in L; lia|exact R|unfold lenN in *; rewrite app_length; simpl; lia|].
      rewrite <- app_assoc in *. exists (c :: b), (c :: t). apply beq_ne in Q, F, S. repeat split; auto. constructor; auto.
Qed.

Lemma block_body b : body b -> forall lvl s, block lvl (b ++ s) = block lvl s.
Proof.
  induction 1 as [|c b H1 H2 H3 _ IH|d b H1 H2 _ IH|d b H1 H2 _ IH|b1 b2 _ IH1 _ IH2]; intros lvl s; auto.
  - simpl. apply beq_ne in H1, H2, H3. rewrite H1, H2, H3. simpl. apply IH.
  - simpl. apply beq_ne in H1, H2. rewrite H1, H2. apply IH.
  - simpl. apply beq_ne in H1, H2. rewrite H1, H2. apply IH.
  - cbn [app]. rewrite <- app_assoc. cbn [app].
    change (block lvl ("#"%char :: "|"%char :: b1 ++ "|"%char :: "#"%char :: b2 ++ s)) with (block (S lvl) (b1 ++ "|"%char :: "#"%char :: b2 ++ s)).
    rewrite IH1. simpl. apply IH2.
Qed.
Fixpoint closes (lvl : nat) (t : list byte) : Prop :=
  exists b, body b /\ match lvl with O => t = b ++ s2b "|#" | S l => exists t', t = b ++ s2b "|#" ++ t' /\ closes l t' end.
Lemma closes_cons lvl x t : (forall b, body b -> body (x ++ b)) -> closes lvl t -> closes lvl (x ++ t).
Proof.
  intros X. destruct lvl as [|l]; simpl; intros [b [B H]]; exists (x ++ b); (split; [auto|]).
  - subst. apply app_assoc.
  - destruct H as [t' [-> H]]. exists t'. split; auto. apply app_assoc.
Qed.
Lemma block_inv n : forall lvl s k, (List.length s <= n)%nat -> block lvl s = ROk tt k -> exists t, s = t ++ k /\ closes lvl t.
Proof.
  induction n as [|n IH]; intros lvl s k L R; destruct s as [|c q]; simpl in *; try discriminate; try lia.
  destruct (beq c xFF) eqn:F; [discriminate|]. destruct (beq c "#") eqn:H; simpl in R.
  - apply beq_eq in H. subst c. destruct q as [|d q']; [discriminate|]. destruct (beq d xFF) eqn:F2; [discriminate|]. simpl in L.
    destruct (beq d "|") eqn:B.
    + apply beq_eq in B. subst d. destruct (IH (S lvl) q' k) as [t [-> C]]; [lia|exact R|]. destruct C as [b [Bb [t' [-> C]]]].
      exists ("#"%char :: "|"%char :: b ++ s2b "|#" ++ t'). split; [simpl; rewrite <- !app_assoc; auto|].
      change ("#"%char :: "|"%char :: b ++ s2b "|#" ++ t') with (("#"%char :: "|"%char :: b) ++ s2b "|#" ++ t').
      rewrite app_assoc. apply closes_cons; auto. intros b2 B2. simpl. rewrite <- app_assoc. simpl. apply BNest; auto.
    + destruct (IH lvl q' k) as [t [-> C]]; [lia|exact R|]. exists ("#"%char :: d :: t). split; auto.
      change ("#"%char :: d :: t) with (["#"%char; d] ++ t). apply closes_cons; auto. intros b Hb. apply beq_ne in B, F2. simpl. apply BHash; auto.
  - destruct (beq c "|") eqn:B; simpl in R.
    + apply beq_eq in B. subst c. destruct q as [|d q']; [discriminate|]. destruct (beq d xFF) eqn:F2; [discriminate|]. simpl in L.
      destruct (beq d "#") eqn:D.
      * apply beq_eq in D. subst d. destruct lvl as [|l].
        -- injection R as <-. exists (s2b "|#"). split; auto. simpl. exists []. split; [constructor|reflexivity].
        -- destruct (IH l q' k) as [t [-> C]]; [lia|exact R|]. exists (s2b "|#" ++ t). split; auto. simpl. exists []. split; [constructor|].
           exists t. auto.
      * destruct (IH lvl q' k) as [t [-> C]]; [lia|exact R|]. exists ("|"%char :: d :: t). split; auto.
        change ("|"%char :: d :: t) with (["|"%char; d] ++ t). apply closes_cons; auto. intros b Hb. apply beq_ne in D, F2. simpl. apply BBar; auto.
    + destruct (IH lvl q k) as [t [-> C]]; [lia|exact R|]. exists (c :: t). split; auto.
      change (c :: t) with ([c] ++ t). apply closes_cons; auto. intros b Hb. apply beq_ne in H, B, F. simpl. apply BChar; auto.
Qed.

(** ** More fuel does not change the result *)
Lemma mono f : (forall s, read_object f s <> RFuel -> read_object (S f) s = read_object f s) /\
  (forall o s, read_pair f o s <> RFuel -> read_pair (S f) o s = read_pair f o s) /\
  (forall a s, read_vector f a s <> RFuel -> read_vector (S f) a s = read_vector f a s).
Proof.
  induction f as [|f [IH1 [IH2 IH3]]]; [split; [|split]; intros; simpl in *; congruence|].
  split; [|split].
  - intros s H. remember (S f) as g. rewrite Heqg in H |- * at 2. cbn [read_object] in H |- *.
    destruct (skip false s) as [|c q]; auto. destruct (beq c "#").
    + destruct q as [|d q']; auto. destruct (beq d "%"); auto. destruct (beq d "t"); auto. destruct (beq d "f"); auto.
      destruct (beq d "\"); auto.
      destruct (beq d "'"). { rewrite IH1; auto. intros E. rewrite E in H. auto. }
      destruct (beq d "("). { apply IH3. auto. }
      destruct (beq d "&"). { rewrite IH1; auto. intros E. rewrite E in H. auto. }
      destruct (beq d "x"); auto.
      destruct (beq d ";").
      { destruct (skip false q') as [|x r0]; auto. destruct (beq x xFF); auto.
        rewrite IH1. 2:{ intros E. rewrite E in H. auto. } destruct (read_object f (x :: r0)); auto; apply IH1; exact H. }
      destruct (beq d "|"); auto. destruct (block 0 q'); auto.
    + destruct (is_digit c || _); auto. destruct (beq c """"); auto. destruct (is_open c); auto.
      destruct (beq c "'"); auto. rewrite IH1; auto. intros E. rewrite E in H. auto.
  - intros o s H. remember (S f) as g. rewrite Heqg in H |- * at 2. cbn [read_pair] in H |- *.
    destruct (skip false s) as [|c q]; auto. destruct (beq c xFF); auto. destruct (is_close c); auto.
    rewrite IH1. 2:{ intros E. rewrite E in H. auto. }
    destruct (read_object f (c :: q)) as [a r| | |]; auto. destruct (skip false r) as [|d r']; auto. destruct (beq d xFF); auto.
    destruct (beq d "." && _).
    + rewrite IH1; auto. intros E. rewrite E in H. auto.
    + rewrite IH2; auto. intros E. rewrite E in H. auto.
  - intros a s H. remember (S f) as g. rewrite Heqg in H |- * at 2. cbn [read_vector] in H |- *.
    destruct (skip false s) as [|c q].
    + rewrite IH1. 2:{ intros E. rewrite E in H. auto. } destruct (read_object f []); auto.
    + destruct (beq c ")"); auto. rewrite IH1. 2:{ intros E. rewrite E in H. auto. } destruct (read_object f (c :: q)); auto.
Qed.
Lemma mono_object f g s r : read_object f s = r -> r <> RFuel -> (f <= g)%nat -> read_object g s = r.
Proof. intros E N L. induction L as [|g L IH]; auto. rewrite (proj1 (mono g)); [auto|congruence]. Qed.
Lemma mono_pair f g o s r : read_pair f o s = r -> r <> RFuel -> (f <= g)%nat -> read_pair g o s = r.
Proof. intros E N L. induction L as [|g L IH]; auto. rewrite (proj1 (proj2 (mono g))); [auto|congruence]. Qed.
Lemma mono_vector f g a s r : read_vector f a s = r -> r <> RFuel -> (f <= g)%nat -> read_vector g a s = r.
Proof. intros E N L. induction L as [|g L IH]; auto. rewrite (proj2 (proj2 (mono g))); [auto|congruence]. Qed.

(** ** Leading whitespace and comments are skipped *)
Lemma read_ws f w k : ws w k -> read_object f (w ++ k) = read_object f k.
Proof. intros W. destruct f; auto. cbn [read_object]. rewrite (skip_ws _ _ W). reflexivity. Qed.
Lemma pair_ws f o w k : ws w k -> read_pair f o (w ++ k) = read_pair f o k.
Proof. intros W. destruct f; auto. cbn [read_pair]. rewrite (skip_ws _ _ W). reflexivity. Qed.
Lemma vector_ws f a w k : ws w k -> read_vector f a (w ++ k) = read_vector f a k.
Proof. intros W. destruct f; auto. cbn [read_vector]. rewrite (skip_ws _ _ W). reflexivity. Qed.

(** ** Every text of the grammar is read *)
Definition head_ok (c : byte) : Prop := is_space c = false /\ c <> ";"%char /\ is_close c = false /\ c <> xFF.
Definition starts (t : list byte) : Prop := exists c q, t = c :: q /\ head_ok c.
Lemma symc_head c : is_symc c = true -> head_ok c.
Proof.
  intros H. assert (X : negb (is_space c) && negb (beq c ";") && negb (is_close c) && negb (beq c xFF) = true).
  { revert H. apply impl_true. bytes_check (fun c => implb (is_symc c) (negb (is_space c) && negb (beq c ";") && negb (is_close c) && negb (beq c xFF))). }
  rewrite !andb_true_iff, !negb_true_iff in X. destruct X as [[[X1 X2] X3] X4]. apply beq_ne in X2, X4. unfold head_ok. auto.
Qed.
Lemma open_head c : is_open c = true -> head_ok c.
Proof.
  intros H. assert (X : negb (is_space c) && negb (beq c ";") && negb (is_close c) && negb (beq c xFF) = true).
  { revert H. apply impl_true. bytes_check (fun c => implb (is_open c) (negb (is_space c) && negb (beq c ";") && negb (is_close c) && negb (beq c xFF))). }
  rewrite !andb_true_iff, !negb_true_iff in X. destruct X as [[[X1 X2] X3] X4]. apply beq_ne in X2, X4. unfold head_ok. auto.
Qed.
Lemma starts_hash t : starts ("#"%char :: t).
Proof. exists "#"%char, t. split; auto. apply symc_head. reflexivity. Qed.
Lemma starts_lit c t : is_symc c || is_open c || beq c """" = true -> starts (c :: t).
Proof.
  rewrite !orb_true_iff. intros [[H|H]|H]; exists c, t; (split; [reflexivity|]).
  - apply symc_head; auto.
  - apply open_head; auto.
  - apply beq_eq in H. subst. repeat split; discriminate.
Qed.
Lemma num_head hex sg z ds r : sign sg z -> Forall (fun c => digit hex c = true) ds -> (hex = false -> ds <> []) -> starts (prefix hex ++ sg ++ ds ++ r).
Proof.
  intros S F D. destruct hex; [apply starts_hash|]. simpl. inversion S; subst; simpl.
  - destruct ds as [|d ds]; [exfalso; apply D; auto|]. simpl. apply starts_lit. inversion F; subst. apply (digit_symc false) in H1. rewrite H1. reflexivity.
  - apply starts_lit. reflexivity.
  - apply starts_lit. reflexivity.
Qed.
Lemma core_head o t k : core o t k -> (o = no_object /\ t = [] /\ k = []) \/ starts t.
Proof.
  intros C. destruct C; auto; right; try (apply starts_hash); try (apply starts_lit; reflexivity).
  - rewrite <- (app_nil_r ds). eapply num_head; eauto.
  - eapply num_head; eauto.
  - apply starts_lit. rewrite H. apply orb_true_intro. left. apply orb_true_intro. auto.
  - destruct t as [|c q]; [destruct H0|]. apply starts_lit. inversion H; subst. rewrite H5. reflexivity.
Qed.
Lemma starts_solid t k : starts t -> solid (t ++ k).
Proof. intros [c [q [-> [H1 [H2 _]]]]]. simpl. auto. Qed.
Lemma text_head o t k : text o t k -> exists w t', t = w ++ t' /\ ws w (t' ++ k) /\ ((o = no_object /\ t' = [] /\ k = []) \/ starts t').
Proof.
  intros T. destruct T as [w o t k W C|w b o t k W B T|w v c t1 d o t k W V H1 H2 H3 T1 T2].
  - exists w, t. split; auto. split; auto. apply (core_head _ _ _ C).
  - exists w, (s2b "#|" ++ b ++ s2b "|#" ++ t). split; auto. split; [|right; apply starts_hash]. rewrite <- !app_assoc. exact W.
  - exists w, (s2b "#;" ++ v ++ (c :: t1) ++ t). split; auto. split; [|right; apply starts_hash].
    rewrite <- !app_assoc. exact W.
Qed.
Lemma items_last op o t k : items op o t k -> exists t' c, t = t' ++ [c].
Proof.
  induction 1 as [|op a t1 b t2 k T I [t' [c ->]]|].
  - eauto.
  - exists (t1 ++ t'), c. apply app_assoc.
  - eexists (t1 ++ w ++ "."%char :: (e :: t2) ++ v), closed. rewrite <- !app_assoc. simpl. rewrite <- !app_assoc. reflexivity.
Qed.
Lemma elems_last l t k : elems l t k -> exists t' c, t = t' ++ [c].
Proof.
  induction 1 as [|o t1 l t2 k T E [t' [c ->]]].
  - eauto.
  - exists (t1 ++ t'), c. apply app_assoc.
Qed.
Lemma snoc_ne (t : list byte) c k : (t ++ [c]) ++ k <> [].
Proof. destruct t; discriminate. Qed.
(** A text that is not at the end of the input starts with a proper character. *)
Lemma text_starts o t k : text o t k -> k <> [] -> exists w t', t = w ++ t' /\ ws w (t' ++ k) /\ starts t'.
Proof. intros T K. destruct (text_head _ _ _ T) as [w [t' [E [W [[_ [_ H]]|H]]]]]; [contradiction|eauto]. Qed.

Lemma matching_close op c : matching op c = true -> is_close c = true /\ is_space c = false /\ c <> ";"%char /\ c <> xFF.
Proof.
  unfold matching, is_close. rewrite !orb_true_iff, !andb_true_iff. intros [[[_ H]|[_ H]]|[_ H]]; rewrite H; apply beq_eq in H; subst; repeat split; auto; discriminate.
Qed.
Lemma skip_at w c k : ws w (c :: k) -> is_space c = false -> c <> ";"%char -> skip false (w ++ c :: k) = c :: k.
Proof. intros W H1 H2. rewrite (skip_ws _ _ W). apply skip_solid. simpl. auto. Qed.

(** The vector of the elements read. *)
Definition vec (l : list obj) : obj := match l with [] => OEmptyVec | _ => OVec l end.
Lemma vec_rev acc l : vec (rev acc ++ l) = match rev acc ++ l with [] => OEmptyVec | x => OVec x end.
Proof. unfold vec. destruct (rev acc ++ l); auto. Qed.

Ltac unread := cbn [read_object].

Lemma num_test sg z ds r c0 q0 : sign sg z -> Forall (fun c => digit false c = true) ds -> ds <> [] -> sg ++ ds ++ r = c0 :: q0 ->
  beq c0 "#" = false /\ is_digit c0 || ((beq c0 "-" || beq c0 "+") && match q0 with d :: _ => is_digit d | [] => false end) = true.
Proof.
  intros S F D EQ. destruct ds as [|d ds]; [exfalso; apply D; auto|]. inversion F as [|? ? DD _]; subst. simpl in DD.
  inversion S; subst; simpl in EQ; injection EQ as <- <-; simpl; rewrite DD; split; auto.
  apply beq_ne. intros ->. discriminate.
Qed.

Lemma complete :
  (forall o t k, text o t k -> exists f, read_object f (t ++ k) = ROk o k) /\
  (forall o t k, core o t k -> exists f, read_object f (t ++ k) = ROk o k) /\
  (forall op o t k, items op o t k -> exists f, read_pair f op (t ++ k) = ROk o k) /\
  (forall l t k, elems l t k -> forall acc, exists f, read_vector f acc (t ++ k) = ROk (vec (rev acc ++ l)) k).
Proof.
  apply grammar_ind.
  - intros w o t k W C [f R]. exists f. rewrite <- app_assoc, (read_ws _ _ _ W). exact R.
  - intros w b o t k W B T [f R]. exists (S f). rewrite <- !app_assoc, (read_ws _ _ _ W). unread. rewrite skip_solid by (simpl; split; [reflexivity|discriminate]).
    simpl. rewrite (block_body _ B). simpl. exact R.
  - intros w v c t1 d o t k W V H1 H2 H3 T1 [f1 R1] T2 [f2 R2]. exists (S (Nat.max f1 f2)). rewrite <- !app_assoc, (read_ws _ _ _ W).
    unread. rewrite skip_solid by (simpl; split; [reflexivity|discriminate]). cbn [s2b list_ascii_of_string app].
    change (beq "#" "#") with true. cbv iota.
    change (beq ";" "%") with false. change (beq ";" "t") with false. change (beq ";" "f") with false. change (beq ";" "\") with false.
    change (beq ";" "'") with false. change (beq ";" "(") with false. change (beq ";" "&") with false. change (beq ";" "x") with false.
    change (beq ";" ";") with true. cbv iota.
    change (c :: t1 ++ t ++ k) with ((c :: t1) ++ t ++ k). rewrite (skip_ws _ _ V). rewrite skip_solid by (simpl; auto). cbn [app].
    rewrite (proj2 (beq_ne _ _) H3). change (c :: t1 ++ t ++ k) with ((c :: t1) ++ t ++ k).
    rewrite (mono_object _ _ _ _ R1) by (discriminate || lia). rewrite (mono_object _ _ _ _ R2) by (discriminate || lia). reflexivity.
  - exists 1%nat. reflexivity.
  - intros k. exists 1%nat. reflexivity.
  - intros k. exists 1%nat. reflexivity.
  - intros c k C E. exists 1%nat. cbn -[read_char]. apply char_ok; auto.
  - intros c n v k I E. exists 1%nat. cbn -[read_char]. apply (char_named_ok c n v k I E).
  - intros o t k T [f R]. exists (S f). cbn -[read_object]. cbn [read_object]. simpl. rewrite R. reflexivity.
  - intros o t k T [f R]. exists (S f). cbn [read_object]. simpl. rewrite R. reflexivity.
  - intros o t k T [f R]. exists (S f). cbn [read_object]. simpl. rewrite R. reflexivity.
  - intros l t k E IH. destruct (IH []) as [f R]. exists (S f). cbn [read_object]. simpl. rewrite R. reflexivity.
  - intros hex sg z ds k S F D V L E. exists 1%nat. rewrite <- !app_assoc.
    assert (HD := num_head hex sg z ds k S F D). destruct HD as [c0 [q0 [EQ [H1 [H2 [H3 H4]]]]]].
    cbn [read_object]. rewrite EQ. rewrite skip_solid by (simpl; auto). destruct hex.
    + simpl in EQ. injection EQ as <- <-. cbn -[read_hex]. rewrite read_hex_num. destruct (sg ++ ds ++ k) as [|c q] eqn:Q.
      * apply (num_ok true sg z ds k None []); auto; rewrite Q; reflexivity.
      * apply (num_ok true sg z ds k (Some c) q); auto; rewrite Q; reflexivity.
    + simpl in EQ. assert (NH := num_test _ _ _ _ _ _ S F (D eq_refl) EQ).
      destruct NH as [-> ->]. rewrite read_dec_num. apply (num_ok false sg z ds k (Some c0) q0); auto; rewrite EQ; reflexivity.
  - intros hex sg z ds c w k S F D V C Y X L E. exists 1%nat. rewrite <- !app_assoc.
    assert (HD := num_head hex sg z ds ((c :: w) ++ k) S F D). destruct HD as [c0 [q0 [EQ [H1 [H2 [H3 H4]]]]]].
    cbn [read_object]. rewrite EQ. rewrite skip_solid by (simpl; auto). destruct hex.
    + simpl in EQ. injection EQ as <- <-. cbn -[read_hex]. rewrite read_hex_num. destruct (sg ++ ds ++ (c :: w) ++ k) as [|c1 q] eqn:Q.
      * apply app_eq_nil in Q. destruct Q as [_ Q]. apply app_eq_nil in Q. destruct Q. discriminate.
      * simpl in Q. rewrite Q. apply (odd_ok true sg z ds c w k c1 q); auto; simpl; rewrite Q; reflexivity.
    + simpl in EQ. assert (NH := num_test _ _ _ _ _ _ S F (D eq_refl) EQ).
      destruct NH as [-> ->]. rewrite read_dec_num. apply (odd_ok false sg z ds c w k c0 q0); auto; simpl; rewrite EQ; reflexivity.
  - intros b t k C L. exists 1%nat. cbn -[read_string]. rewrite <- app_assoc. apply (string_ok b t C [] k L).
  - intros op o t k O I [f R]. exists (S f). cbn [read_object app]. assert (H := open_head _ O). destruct H as [H1 [H2 _]].
    rewrite skip_solid by (simpl; auto).
    assert (NH : beq op "#" = false /\ is_digit op = false /\ beq op "-" = false /\ beq op "+" = false /\ beq op """" = false).
    { unfold is_open in O. rewrite !orb_true_iff in O. destruct O as [[O|O]|O]; apply beq_eq in O; subst; repeat split. }
    destruct NH as [-> [-> [-> [-> ->]]]]. simpl. rewrite O. exact R.
  - intros t k F S L E. exists 1%nat. destruct t as [|c q]; [destruct S|]. cbn [read_object app].
    inversion F; subst. assert (H := symc_head _ H1). destruct H as [K1 [K2 [K3 K4]]]. rewrite skip_solid by (simpl; auto).
    destruct S as [S1 [S2 [S3 S4]]].
    assert (RS := symbol_ok [] (c :: q) k F E L). cbn [app] in RS.
    destruct (beq c "#") eqn:HC.
    + apply beq_eq in HC. destruct (S3 HC) as [q' ->]. cbn [app]. change (beq "%" "%") with true. cbv iota. exact RS.
    + rewrite S1. assert (NN : (beq c "-" || beq c "+") && match q ++ k with d :: _ => is_digit d | [] => false end = false).
      { destruct (beq c "-" || beq c "+") eqn:PM; auto. simpl. rewrite orb_true_iff in PM. destruct q as [|d q]; simpl.
        - destruct k as [|d k]; auto. simpl in E. destruct (is_digit d) eqn:DD; auto. apply (digit_symc false) in DD. apply delim_symc in E. congruence.
        - apply S4. destruct PM as [PM|PM]; apply beq_eq in PM; auto. }
      rewrite NN. simpl orb. cbv iota.
      assert (NQ : beq c """" = false) by (apply beq_ne; intros ->; discriminate). rewrite NQ.
      assert (NO : is_open c = false).
      { destruct (is_open c) eqn:O; auto. unfold is_open in O. rewrite !orb_true_iff in O. destruct O as [[O|O]|O]; apply beq_eq in O; subst; discriminate. }
      rewrite NO. rewrite (proj2 (beq_ne _ _) S2). rewrite H1. exact RS.
  - intros op w c k W M. exists 1%nat. destruct (matching_close _ _ M) as [K1 [K2 [K3 K4]]]. cbn [read_pair]. rewrite <- app_assoc. cbn [app].
    rewrite (skip_at _ _ _ W K2 K3). rewrite (proj2 (beq_ne _ _) K4), K1, M. reflexivity.
  - intros op a t1 b t2 k T [f1 R1] I [f2 R2] ND. exists (S (Nat.max f1 f2)). cbn [read_pair]. rewrite <- app_assoc.
    destruct (items_last _ _ _ _ I) as [t' [c' Et]].
    destruct (text_starts _ _ _ T) as [w [t3 [E3 [W [c [q [-> [H1 [H2 [H3 H4]]]]]]]]]]; [subst t2; apply snoc_ne|].
    subst t1. rewrite <- app_assoc in R1 |- *. rewrite (read_ws _ _ _ W) in R1. cbn [app] in R1, W |- *. rewrite (skip_at _ _ _ W H1 H2).
    rewrite (proj2 (beq_ne _ _) H4), H3. rewrite (mono_object _ _ _ _ R1) by (discriminate || lia).
    destruct (skip_spec (t2 ++ k)) as [v [Ev [V SO]]]. destruct (skip false (t2 ++ k)) as [|d r'] eqn:SK.
    { exfalso. destruct f2 as [|f2]; [discriminate|]. cbn [read_pair] in R2. rewrite SK in R2. discriminate. }
    assert (XF : beq d xFF = false).
    { destruct f2 as [|f2]; [discriminate|]. cbn [read_pair] in R2. rewrite SK in R2. destruct (beq d xFF); auto. discriminate. }
    rewrite XF. assert (ND' : beq d "." && match r' with e :: _ => is_space e | [] => false end = false).
    { destruct (beq d ".") eqn:DD; auto. simpl. apply beq_eq in DD. subst d. destruct r' as [|e r']; auto. apply (ND v e r'); auto. }
    rewrite ND'. rewrite Ev, (pair_ws _ _ _ _ V) in R2. rewrite (mono_pair _ _ _ _ _ R2) by (discriminate || lia). reflexivity.
  - intros op a t1 w e b t2 v c k T1 [f1 R1] W SE T2 [f2 R2] V M. exists (S (Nat.max f1 f2)). destruct (matching_close _ _ M) as [K1 [K2 [K3 K4]]].
    cbn [read_pair]. rewrite <- !app_assoc. cbn [app]. rewrite <- !app_assoc. cbn [app]. cbn [app] in R1, T1, W, T2, R2.
    destruct (text_starts _ _ _ T1) as [u [t3 [E3 [U [d [q [-> [H1 [H2 [H3 H4]]]]]]]]]]; [destruct w; discriminate|].
    subst t1. rewrite <- app_assoc in R1 |- *. rewrite (read_ws _ _ _ U) in R1. cbn [app] in R1, U |- *. rewrite (skip_at _ _ _ U H1 H2).
    rewrite (proj2 (beq_ne _ _) H4), H3. rewrite (mono_object _ _ _ _ R1) by (discriminate || lia).
    rewrite (skip_at w "."%char _ W) by (reflexivity || discriminate). change (beq "." xFF) with false. change (beq "." ".") with true. rewrite SE. cbv iota. simpl andb. cbv iota.
    change (e :: t2 ++ v ++ c :: k) with ((e :: t2) ++ v ++ c :: k). cbn [app]. rewrite (mono_object _ _ _ _ R2) by (discriminate || lia).
    rewrite (skip_at _ _ _ V K2 K3). rewrite (proj2 (beq_ne _ _) K4), K1, M. reflexivity.
  - intros w k W E acc. exists 1%nat. cbn [read_vector]. rewrite <- app_assoc. cbn [app]. rewrite (skip_at w ")"%char k W) by (reflexivity || discriminate).
    change (beq ")" ")") with true. cbv iota. rewrite char_ok by (auto; discriminate). rewrite app_nil_r. f_equal. unfold vec.
    destruct acc as [|x acc]; auto. simpl. destruct (rev acc ++ [x]) eqn:R; auto. destruct (rev acc); discriminate.
  - intros o t1 l t2 k T [f1 R1] I IH acc. destruct (IH (o :: acc)) as [f2 R2]. exists (S (Nat.max f1 f2)). cbn [read_vector]. rewrite <- app_assoc.
    destruct (elems_last _ _ _ I) as [t' [c' Et]].
    destruct (text_starts _ _ _ T) as [w [t3 [E3 [W [c [q [-> [H1 [H2 [H3 H4]]]]]]]]]]; [subst t2; apply snoc_ne|].
    subst t1. rewrite <- app_assoc in R1 |- *. rewrite (read_ws _ _ _ W) in R1. cbn [app] in R1, W |- *. rewrite (skip_at _ _ _ W H1 H2).
    assert (NC : beq c ")" = false) by (apply beq_ne; intros ->; discriminate). rewrite NC.
    rewrite (mono_object _ _ _ _ R1) by (discriminate || lia). rewrite (mono_vector _ _ _ _ _ R2) by (discriminate || lia).
    simpl. rewrite <- app_assoc. reflexivity.
Qed.

(** ** Everything that is read is a text of the grammar *)
Lemma text_nonempty o t k s : text o t k -> s = t ++ k -> s <> [] -> t <> [].
Proof.
  intros T E N ->. destruct (text_head _ _ _ T) as [w [t' [E1 [_ [[_ [_ ->]]|[c [q [-> _]]]]]]]].
  - apply N. exact E.
  - destruct w; discriminate.
Qed.
Lemma noFF_tl c (q : list byte) : ~ In xFF (c :: q) -> ~ In xFF q. Proof. intros N I. apply N. right. exact I. Qed.
Lemma skip_noFF s : ~ In xFF s -> ~ In xFF (skip false s).
Proof. intros N I. destruct (skip_spec s) as [w [E _]]. apply N. rewrite E. apply in_app_iff. auto. Qed.

Lemma sound f :
  (forall s o k, ~ In xFF s -> read_object f s = ROk o k -> exists t, s = t ++ k /\ text o t k) /\
  (forall op s o k, ~ In xFF s -> read_pair f op s = ROk o k -> exists t, s = t ++ k /\ items op o t k) /\
  (forall acc s o k, ~ In xFF s -> read_vector f acc s = ROk o k -> exists l t, s = t ++ k /\ elems l t k /\ o = vec (rev acc ++ l)).
Proof.
  induction f as [|f [IO [IP IV]]]; [repeat split; discriminate|]. split; [|split].
  - intros s o k N R. assert (NK := skip_noFF s N). destruct (skip_spec s) as [w [E [W _]]].
    cbn [read_object] in R. set (s1 := skip false s) in *. clearbody s1. subst s.
    assert (HC : (exists t, s1 = t ++ k /\ core o t k) -> exists t, w ++ s1 = t ++ k /\ text o t k).
    { intros [t [E C]]. exists (w ++ t). subst s1. rewrite app_assoc. split; auto. apply TCore; auto. }
    destruct s1 as [|c q]; [injection R as <- <-; apply HC; exists []; split; [auto|apply CEnd]|].
    assert (NQ := noFF_tl _ _ NK).
    destruct (beq c "#") eqn:H.
    + apply beq_eq in H. subst c. destruct q as [|d q']; [discriminate|]. assert (NQ' := noFF_tl _ _ NQ).
      destruct (beq d "%") eqn:D1.
      { apply beq_eq in D1. subst d. destruct (symbol_inv _ _ _ _ NK R) as [t [E [F [EK [L ->]]]]]. apply HC. exists t. split; auto.
        apply CSym; auto. destruct t as [|c t]; [simpl in E; subst k; discriminate|]. injection E as <- E. simpl.
        split; auto. split; [discriminate|]. split; [intros _|intros [X|X]; discriminate].
        destruct t as [|d t]; [simpl in E; subst k; discriminate|]. injection E as <- E. eauto. }
      destruct (beq d "t") eqn:D2.
      { apply beq_eq in D2. subst d. injection R as <- <-. apply HC. exists (s2b "#t"). split; auto. apply CTrue. }
      destruct (beq d "f") eqn:D3.
      { apply beq_eq in D3. subst d. injection R as <- <-. apply HC. exists (s2b "#f"). split; auto. apply CFalse. }
      destruct (beq d "\") eqn:D4.
      { apply beq_eq in D4. subst d. destruct (char_inv _ _ _ NQ' R) as [t [-> [C _]]]. apply HC. exists (s2b "#\" ++ t). split; auto. }
      destruct (beq d "'") eqn:D5.
      { apply beq_eq in D5. subst d. destruct (read_object f q') as [x r| | |] eqn:R1; try discriminate. injection R as <- <-.
        destruct (IO _ _ _ NQ' R1) as [t [-> T]]. apply HC. exists (s2b "#'" ++ t). split; auto. apply CQuoteStx; auto. }
      destruct (beq d "(") eqn:D6.
      { apply beq_eq in D6. subst d. destruct (IV _ _ _ _ NQ' R) as [l [t [-> [T ->]]]]. apply HC. exists (s2b "#(" ++ t). split; auto.
        apply (CVec l); auto. }
      destruct (beq d "&") eqn:D7.
      { apply beq_eq in D7. subst d. destruct (read_object f q') as [x r| | |] eqn:R1; try discriminate. injection R as <- <-.
        destruct (IO _ _ _ NQ' R1) as [t [-> T]]. apply HC. exists (s2b "#&" ++ t). split; auto. apply CBox; auto. }
      destruct (beq d "x") eqn:D8.
      { apply beq_eq in D8. subst d. rewrite read_hex_num in R. apply HC. destruct q' as [|c q].
        - change (read_num true None []) with (read_hex []) in R. rewrite hex_nil in R. injection R as <- <-. exists (s2b "#x"). split; auto.
          apply (CNum true [] 1 [] []); simpl; auto; try apply SgNone; try discriminate; reflexivity.
        - destruct (num_inv true c q o k NQ') as [t [E C]]; [discriminate|exact R|]. exists (prefix true ++ t). split; auto.
          simpl. rewrite E. reflexivity. }
      destruct (beq d ";") eqn:D9.
      { apply beq_eq in D9. subst d. destruct (skip_spec q') as [v [E [V SO]]]. assert (NS := skip_noFF _ NQ').
        destruct (skip false q') as [|x r0] eqn:SK; [discriminate|]. destruct (beq x xFF) eqn:XF; [discriminate|].
        destruct (read_object f (x :: r0)) as [dd r| | |] eqn:R1; try discriminate.
        destruct (IO _ _ _ NS R1) as [t1 [E1 T1]]. assert (NE := text_nonempty _ _ _ _ T1 E1 ltac:(discriminate)).
        destruct t1 as [|c1 t1]; [contradiction|]. cbn [app] in E1. injection E1 as <- E1.
        assert (NR : ~ In xFF r). { subst r0. apply noFF_tl in NS. apply noFF_app in NS. tauto. }
        destruct (IO _ _ _ NR R) as [t2 [E2 T2]].
        exists (w ++ s2b "#;" ++ v ++ (x :: t1) ++ t2). rewrite E in W |- *. rewrite E1, E2 in W, V |- *. split.
        - repeat (rewrite <- app_assoc || cbn [app s2b list_ascii_of_string]). reflexivity.
        - destruct SO as [SO1 SO2]. eapply TDatum; eauto.
          + apply beq_ne. exact XF.
          + rewrite <- E2. exact T1. }
      destruct (beq d "|") eqn:D10; [|discriminate].
      { apply beq_eq in D10. subst d. destruct (block 0 q') as [[] r| | |] eqn:B; try discriminate.
        destruct (block_inv _ _ _ _ (le_n _) B) as [t [E [b [BB Et]]]]. subst t q'.
        assert (NR : ~ In xFF r) by (apply noFF_app in NQ'; tauto).
        destruct (IO _ _ _ NR R) as [t2 [E2 T2]]. subst r.
        exists (w ++ s2b "#|" ++ b ++ s2b "|#" ++ t2). rewrite <- app_assoc in W |- *. split.
        - repeat (rewrite <- app_assoc || cbn [app s2b list_ascii_of_string]). reflexivity.
        - apply TBlock; auto. }
    + destruct (is_digit c || ((beq c "-" || beq c "+") && match q with d :: _ => is_digit d | [] => false end)) eqn:NM.
      { rewrite read_dec_num in R. destruct (num_inv false c q o k NK) as [t [E C]]; [|exact R|apply HC; exists t; auto].
        intros _. apply orb_true_iff in NM. destruct NM as [NM|NM]; auto. apply andb_true_iff in NM. destruct NM as [N1 N2]. right.
        split; [apply orb_true_iff in N1; destruct N1 as [N1|N1]; apply beq_eq in N1; auto|]. destruct q as [|d q]; [discriminate|eauto]. }
      apply orb_false_iff in NM. destruct NM as [NM1 NM2].
      destruct (beq c """") eqn:C1.
      { apply beq_eq in C1. subst c. destruct (string_inv _ _ _ _ _ (le_n _) R) as [b [t [-> [C [L ->]]]]]; [vm_compute; discriminate|].
        apply HC. exists (""""%char :: t ++ [""""%char]). split; [simpl; rewrite <- app_assoc; reflexivity|]. apply CStr; auto. }
      destruct (is_open c) eqn:C2.
      { destruct (IP _ _ _ _ NQ R) as [t [-> T]]. apply HC. exists (c :: t). split; auto. apply (CList c); auto. }
      destruct (beq c "'") eqn:C3.
      { apply beq_eq in C3. subst c. destruct (read_object f q) as [x r| | |] eqn:R1; try discriminate. injection R as <- <-.
        destruct (IO _ _ _ NQ R1) as [t [-> T]]. apply HC. exists ("'"%char :: t). split; auto. apply CQuote; auto. }
      destruct (is_symc c) eqn:C4.
      { destruct (symbol_inv _ _ _ _ NK R) as [t [E [F [EK [L ->]]]]]. apply HC. exists t. split; auto.
        apply CSym; auto. destruct t as [|c' t].
        - simpl in E. subst k. simpl in EK. apply delim_symc in EK. congruence.
        - cbn [app] in E. injection E as <- E. simpl. split; auto. split; [apply beq_ne; auto|]. split.
          + intros ->. discriminate.
          + intros PM. assert (P : beq c "-" || beq c "+" = true) by (destruct PM as [-> | ->]; reflexivity). rewrite P in NM2. simpl in NM2.
            subst q. destruct t; auto. }
      destruct (beq c xFF) eqn:C5; [|discriminate]. exfalso. apply beq_eq in C5. apply NK. left. auto.
  - intros op s o k N R. assert (NK := skip_noFF s N). destruct (skip_spec s) as [w [E [W _]]].
    cbn [read_pair] in R. set (s1 := skip false s) in *. clearbody s1. subst s.
    destruct s1 as [|c q]; [discriminate|]. destruct (beq c xFF) eqn:XF; [discriminate|].
    destruct (is_close c) eqn:CL.
    { destruct (matching op c) eqn:M; [|discriminate]. injection R as <- <-. exists (w ++ [c]). rewrite <- app_assoc. split; auto. apply IEnd; auto. }
    destruct (read_object f (c :: q)) as [a r| | |] eqn:R1; try discriminate.
    rewrite <- (read_ws _ _ _ W) in R1. destruct (IO _ _ _ N R1) as [t1 [E1 T1]]. rewrite E1 in N |- *. clear c q XF CL W R1 NK E1 w.
    destruct (noFF_app _ _ N) as [_ NR].
    destruct (skip_spec r) as [v [Ev [V SO]]]. assert (NS := skip_noFF _ NR). destruct (skip false r) as [|d r'] eqn:SK; [discriminate|].
    destruct (beq d xFF) eqn:XF; [discriminate|].
    destruct (beq d "." && match r' with e :: _ => is_space e | [] => false end) eqn:DOT.
    + apply andb_true_iff in DOT. destruct DOT as [DD DS]. apply beq_eq in DD. subst d. destruct r' as [|e r']; [discriminate|].
      destruct (read_object f (e :: r')) as [b r2| | |] eqn:R2; try discriminate.
      assert (NS' := noFF_tl _ _ NS). destruct (IO _ _ _ NS' R2) as [t2 [E2 T2]].
      assert (NE := text_nonempty _ _ _ _ T2 E2 ltac:(discriminate)). destruct t2 as [|e' t2]; [contradiction|].
      cbn [app] in E2. injection E2 as <- E2. destruct (skip_spec r2) as [u [Eu [U SO2]]].
      destruct (skip false r2) as [|g r3] eqn:SK2; [discriminate|]. destruct (beq g xFF); [discriminate|].
      destruct (is_close g); [|discriminate]. destruct (matching op g) eqn:M; [|discriminate]. injection R as <- <-.
      subst r2 r' r. exists (t1 ++ v ++ "."%char :: (e :: t2) ++ u ++ [g]). split.
      * repeat (rewrite <- app_assoc || cbn [app]). reflexivity.
      * eapply IDot; eauto.
    + destruct (read_pair f op (d :: r')) as [b r2| | |] eqn:R2; try discriminate. injection R as <- <-.
      rewrite <- (pair_ws _ _ _ _ V), <- Ev in R2. destruct (IP _ _ _ _ NR R2) as [t2 [E2 T2]]. clear Ev. subst r.
      exists (t1 ++ t2). rewrite <- app_assoc. split; auto. apply ICons; auto.
      intros w e r E W. rewrite E in SK. rewrite (skip_at w "."%char _ W) in SK by (reflexivity || discriminate). injection SK as <- <-.
      simpl in DOT. exact DOT.
  - intros acc s o k N R. assert (NK := skip_noFF s N). destruct (skip_spec s) as [w [E [W _]]].
    cbn [read_vector] in R. cbv zeta in R. set (s1 := skip false s) in *. clearbody s1. subst s.
    assert (HO : match read_object f s1 with ROk x r => read_vector f (x :: acc) r | e => e end = ROk o k ->
      exists l t, w ++ s1 = t ++ k /\ elems l t k /\ o = vec (rev acc ++ l)).
    { clear R. intros R. destruct (read_object f s1) as [x r| | |] eqn:R1; try discriminate. rewrite <- (read_ws _ _ _ W) in R1.
      destruct (IO _ _ _ N R1) as [t1 [E1 T1]]. rewrite E1 in N |- *. destruct (noFF_app _ _ N) as [_ NR].
      destruct (IV _ _ _ _ NR R) as [l [t2 [-> [T2 ->]]]]. exists (x :: l), (t1 ++ t2). rewrite <- app_assoc. split; auto.
      split; [apply ECons; auto|]. simpl. rewrite <- app_assoc. reflexivity. }
    destruct s1 as [|c q]; [auto|]. destruct (beq c ")") eqn:CL; [|auto]. apply beq_eq in CL. subst c.
    destruct (read_char (")"%char :: q)) as [x r| | |] eqn:RC; try discriminate. injection R as <- <-.
    destruct (char_inv _ _ _ NK RC) as [t [E [_ X]]]. destruct (X _ _ eq_refl eq_refl) as [-> EK]. cbn [app] in E. injection E as ->.
    exists [], (w ++ [")"%char]). rewrite <- app_assoc. split; auto. split; [apply ENil; auto|]. rewrite app_nil_r. unfold vec.
    destruct acc as [|y acc]; auto. simpl. destruct (rev acc ++ [y]) eqn:RV; auto. destruct (rev acc); discriminate.
Qed.
