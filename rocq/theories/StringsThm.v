(** C19: strings.  C20: numbers as strings.  C51: characters and symbols.

    [str_is h v s]: in heap [h], [v] is a string with characters [s] (the bytes
    before the first NUL of its buffer).  [only_changes v h h']: [h'] differs from
    [h] at most in the cell of [v] (VectorsThm.v). *)
From Coq Require Import ZArith NArith Bool Ascii String List Lia.
From Verif Require Import Base Outcome Arith Decimal Heap HeapM Equal Lists ListsProofs Vectors VectorsThm Strings StringsProofs.
Import ListNotations.
Local Open Scope Z_scope.
Local Open Scope nat_scope.

(** ** Accesses *)

Theorem C19_string_length v h :
  match str_at h v with
  | Some _ => exists s, str_is h v s /\ p_string_length v h = HOk (VFix (Z.of_nat (length s))) h
  | None => p_string_length v h = HErr (EArg "string-length" v) h
  end.
Proof.
  unfold p_string_length, if_str, stringp. destruct (str_at h v) as [b|] eqn:E; auto.
  exists (cstr b). split; [exists b; auto|]. unfold bind, c_string_length. now rewrite E.
Qed.

(** [string-ref] for every value given as string and as index. *)
Theorem C19_string_ref v i h :
  match p_string_ref v i h with
  | HOk r h' => h' = h /\ exists s z c, str_is h v s /\ i = VFix z /\ (0 <= z)%Z /\
                  nth_error s (Z.to_nat z) = Some c /\ r = VChar c
  | HErr e h' => h' = h /\
      ((str_at h v = None /\ e = EArg "string-ref" v) \/
       (exists s, str_is h v s /\
         ((forall z, i = VFix z -> (z < 0)%Z) /\ e = EArg "string-ref" i \/
          exists z, i = VFix z /\ (Z.of_nat (length s) <= z)%Z /\ e = ERange "string-ref" i)))
  | HUndef | HFuel => False
  end.
Proof.
  destruct (str_at h v) as [b|] eqn:E.
  2:{ unfold p_string_ref, if_str, stringp. rewrite E. split; auto. }
  assert (Hs : str_is h v (cstr b)) by (exists b; auto).
  destruct i; try (unfold p_string_ref, if_str, stringp, if_index; rewrite E; split; [reflexivity|];
    right; exists (cstr b); split; auto; left; split; [discriminate|reflexivity]).
  destruct (Z.leb_spec 0 z) as [Hz|Hz].
  - destruct (nth_error (cstr b) (Z.to_nat z)) as [c|] eqn:Ec.
    + rewrite (string_ref_ok _ _ _ _ _ Hs Hz Ec). split; auto. exists (cstr b), z, c. auto.
    + unfold p_string_ref, if_str, stringp, if_index. rewrite E.
      replace (0 <=? z)%Z with true by (symmetry; apply Z.leb_le; auto).
      rewrite (bind_ok _ _ _ _ _ (string_length_ok _ _ _ Hs)). apply nth_error_None in Ec.
      replace (Z.of_nat (length (cstr b)) <=? z)%Z with true by (symmetry; apply Z.leb_le; lia).
      split; [reflexivity|]. right. exists (cstr b). split; auto. right. exists z. repeat split; auto. lia.
  - unfold p_string_ref, if_str, stringp, if_index. rewrite E.
    replace (0 <=? z)%Z with false by (symmetry; apply Z.leb_gt; auto).
    split; [reflexivity|]. right. exists (cstr b). split; auto. left. split; auto. intros ? [= <-]; auto.
Qed.

(** [string-set!] of a character other than NUL stores it at that place; of NUL
    it cuts the string off there.  It never writes outside the string, and an error
    changes nothing. *)
Theorem C19_string_set v i c h :
  match p_string_set v i c h with
  | HOk _ h' => only_changes v h h' /\ exists s t z x,
      str_is h v s /\ i = VFix z /\ c = VChar x /\ (0 <= z < Z.of_nat (length s))%Z /\ str_is h' v t /\
      (x <> NUL -> length t = length s /\ nth_error t (Z.to_nat z) = Some x /\
                   forall j, j <> Z.to_nat z -> nth_error t j = nth_error s j) /\
      (x = NUL -> t = firstn (Z.to_nat z) s)
  | HErr e h' => h' = h /\
      ((str_at h v = None /\ e = EArg "string-set!" v) \/
       (exists s, str_is h v s /\
         ((forall z, i = VFix z -> (z < 0)%Z) /\ e = EArg "string-set!" i \/
          (exists z, i = VFix z /\ (Z.of_nat (length s) <= z)%Z /\ e = ERange "string-set!" i) \/
          (exists z, i = VFix z /\ (0 <= z < Z.of_nat (length s))%Z /\ (forall x, c <> VChar x) /\ e = EArg "string-set!" c))))
  | HUndef | HFuel => False
  end.
Proof.
  unfold p_string_set, if_str, stringp, if_index. destruct (str_at h v) as [b|] eqn:E; auto.
  assert (Hs : str_is h v (cstr b)) by (exists b; auto).
  destruct i; try (split; [reflexivity|]; right; exists (cstr b); split; [exact Hs|]; left; split; [discriminate|reflexivity]).
  destruct (Z.leb_spec 0 z) as [Hz|Hz];
    [|split; [reflexivity|]; right; exists (cstr b); split; [exact Hs|]; left; split; [intros ? [= <-]; auto|reflexivity]].
  rewrite (bind_ok _ _ _ _ _ (string_length_ok _ _ _ Hs)).
  destruct (Z.leb_spec (Z.of_nat (length (cstr b))) z) as [Hl|Hl];
    [split; [reflexivity|]; right; exists (cstr b); split; [exact Hs|]; right; left; exists z; repeat split; auto|].
  destruct c as [| | | | | | | | |x| | |];
    try (split; [reflexivity|]; right; exists (cstr b); split; [exact Hs|]; right; right; exists z; repeat split; auto; discriminate).
  destruct (str_at_ptr _ _ _ E) as (l & -> & En).
  unfold bind, c_string_set. rewrite E.
  replace ((0 <=? z) && (z <? Z.of_nat (length b)))%Z with true
    by (symmetry; rewrite andb_true_iff, Z.leb_le, Z.ltb_lt; pose proof (cstr_length b); lia).
  assert (Hlen : l < length h) by (apply nth_error_Some; congruence). cbn [ret].
  split; [split; [apply upd_cell_length|]; intros m Hm; apply upd_cell_ne; congruence|].
  exists (cstr b), (cstr (upd_nth (Z.to_nat z) x b)), z, x. repeat (split; [solve [auto]|]). split.
  - exists (upd_nth (Z.to_nat z) x b). split; auto. apply str_at_nth. now apply upd_cell_eq.
  - split.
    + intros Hx. rewrite cstr_upd by (auto; lia). rewrite upd_nth_length. split; auto.
      split; [apply upd_nth_eq; lia|]. intros. apply upd_nth_ne; auto.
    + intros ->. apply cstr_upd_nul. lia.
Qed.

(** Through the API: a stored character other than NUL is read back, all other
    characters and the length stay. *)
Theorem C19_ref_after_set v i x h r h' : x <> NUL ->
  p_string_set v i (VChar x) h = HOk r h' ->
  p_string_ref v i h' = HOk (VChar x) h' /\
  (forall j, j <> i -> forall y, p_string_ref v j h' = HOk y h' <-> p_string_ref v j h = HOk y h) /\
  (exists n, p_string_length v h = HOk n h /\ p_string_length v h' = HOk n h').
Proof.
  intros Hx H. pose proof (C19_string_set v i (VChar x) h) as S. rewrite H in S.
  destruct S as (_ & s & t & z & x' & Hs & -> & [= <-] & Hz & Ht & Hn & _).
  destruct (Hn Hx) as (Hlen & Hc & Hj). split; [|split].
  - eapply string_ref_ok; eauto. lia.
  - assert (D : forall g u, str_is g v u -> forall j y, p_string_ref v j g = HOk y g <->
             exists k c, j = VFix k /\ (0 <= k)%Z /\ nth_error u (Z.to_nat k) = Some c /\ y = VChar c).
    { intros g u Hu j y. pose proof (C19_string_ref v j g) as R. split.
      - intros E. rewrite E in R. destruct R as (_ & s' & k & c & Hs' & -> & Hk & Hc' & ->).
        rewrite (str_is_fun _ _ _ _ Hu Hs'). eauto 10.
      - intros (k & c & -> & Hk & Hc' & ->). eapply string_ref_ok; eauto. }
    intros j Hne y. rewrite (D _ _ Ht), (D _ _ Hs). split; intros (k & c & -> & Hk & Hc' & ->); exists k, c; repeat split; auto.
    + rewrite <- Hj; auto. intros C. apply Hne. f_equal. lia.
    + rewrite Hj; auto. intros C. apply Hne. f_equal. lia.
  - exists (VFix (Z.of_nat (length s))). split.
    + pose proof (C19_string_length v h) as L. destruct Hs as (b & E & <-). rewrite E in L.
      destruct L as (s' & Hs' & ->). do 3 f_equal. rewrite (str_is_fun h v s' (cstr b)); auto. exists b; auto.
    + pose proof (C19_string_length v h') as L. destruct Ht as (b & E & Ht). rewrite E in L.
      destruct L as (s' & Hs' & ->). do 3 f_equal. rewrite (str_is_fun h' v s' t); auto. exists b; auto.
Qed.
(** Storing NUL does not keep the length (nor is it read back). *)
Theorem C19_set_nul_refuted : exists v i h r h', p_string_set v i (VChar NUL) h = HOk r h' /\
  p_string_length v h = HOk (VFix 2) h /\ p_string_length v h' = HOk (VFix 0) h' /\
  p_string_ref v i h' = HErr (ERange "string-ref" i) h'.
Proof. exists (VPtr 0), (VFix 0), [CStr (s2b "ab")]. eexists _, _. repeat split; reflexivity. Qed.

(** ** Building strings *)

(** [string-append] of any number of strings is a string of the concatenated
    characters; the arguments are unchanged. *)
Theorem C19_string_append h args ss fuel :
  Forall2 (str_is h) args ss -> (Z.of_nat (length (concat ss)) + 1 < 2 ^ 63)%Z ->
  length (concat ss) + length args <= fuel ->
  exists r h', p_string_append fuel args h = HOk r h' /\ extends h h' /\ str_is h' r (concat ss).
Proof.
  intros H2 Hsz Hf. unfold p_string_append. destruct args as [|x [|y args]].
  - inversion H2; subst. exists (VPtr (length h)), (h ++ [CStr []]). split; auto. split; [apply extends_snoc|].
    exists []. split; auto. apply str_at_nth, nth_snoc_new.
  - rewrite (bind_ok _ _ _ _ _ (check_strings_ok _ _ _ H2)). exists x, h. split; [reflexivity|]. split; [apply extends_refl|].
    inversion H2 as [|? s ? ? Hs Hn]; subst. inversion Hn; subst. cbn [concat]. rewrite app_nil_r. auto.
  - rewrite (bind_ok _ _ _ _ _ (check_strings_ok _ _ _ H2)).
    rewrite (bind_ok _ _ _ _ _ (sum_lengths_ok _ _ _ 0%Z H2)). rewrite Z.add_0_l. unfold c_make_string.
    replace (Z.of_nat (length (concat ss)) + 1 <? 2 ^ 63)%Z with true by (symmetry; apply Z.ltb_lt; auto).
    unfold bind at 1, m_alloc. rewrite Nat2Z.id.
    pose proof (string_append_loop_ok fuel (x :: y :: args) h ss [] 0 H2 ltac:(intros []) ltac:(destruct ss; [auto|lia]) ltac:(lia)) as E.
    rewrite Nat.sub_0_r in E. cbn [app length Z.of_nat] in E.
    eexists _, _. split; [exact E|]. split; [apply extends_snoc|].
    exists (skipn 0 (concat ss)). split; [apply str_at_nth, nth_snoc_new|]. cbn [skipn].
    apply cstr_nul_free. clear - H2. induction H2 as [|? ? ? ? Hs H2 IH]; [intros []|].
    cbn [concat]. apply nul_free_app. split; auto. eapply str_is_nul_free; eauto.
Qed.
(** With one argument the result is that very string, so that changing the one
    changes the other. *)
Theorem C19_append_fresh_refuted : exists h v, str_is h v (s2b "ab") /\ p_string_append 9 [v] h = HOk v h.
Proof. exists [CStr (s2b "ab")], (VPtr 0). split; [exists (s2b "ab"); auto|reflexivity]. Qed.

(** [substring] is the sub-sequence; anything else raises and changes nothing. *)
Theorem C19_substring h v s a b fuel : str_is h v s -> (0 <= a <= b)%Z -> (b <= Z.of_nat (length s))%Z ->
  (Z.of_nat (length s) + 1 < 2 ^ 63)%Z -> length s <= fuel ->
  exists r h', l_substring fuel v (VFix a) (VFix b) h = HOk r h' /\ extends h h' /\
    str_is h' r (firstn (Z.to_nat (b - a)) (skipn (Z.to_nat a) s)).
Proof.
  intros Hs Ha Hb Hsz Hf. unfold l_substring.
  assert (E : p_string_length v h = HOk (VFix (Z.of_nat (length s))) h).
  { pose proof (C19_string_length v h) as L. pose proof Hs as (bf & E & _). rewrite E in L.
    destruct L as (s' & Hs' & ->). now rewrite (str_is_fun _ _ _ _ Hs Hs'). }
  rewrite (bind_ok _ _ _ _ _ E).
  replace (a <? 0)%Z with false by (symmetry; apply Z.ltb_ge; lia).
  replace (b <? 0)%Z with false by (symmetry; apply Z.ltb_ge; lia).
  replace (Z.of_nat (length s) <? b)%Z with false by (symmetry; apply Z.ltb_ge; lia).
  replace (b <? a)%Z with false by (symmetry; apply Z.ltb_ge; lia).
  unfold p_make_string. replace (0 <=? b - a)%Z with true by (symmetry; apply Z.leb_le; lia).
  unfold c_make_string. replace (b - a + 1 <? 2 ^ 63)%Z with true.
  2:{ symmetry. apply Z.ltb_lt. remember (2 ^ 63)%Z as P. lia. }
  unfold bind at 1, m_alloc.
  pose proof (substring_loop_ok (Z.to_nat (b - a)) h v s [] (Z.to_nat a) fuel Hs ltac:(intros []) ltac:(lia) ltac:(lia)) as R.
  cbn [app length Z.of_nat] in R. rewrite Z2Nat.id in R by lia.
  replace (Z.of_nat (Z.to_nat a + Z.to_nat (b - a))) with b in R by lia.
  eexists _, _. split; [exact R|]. split; [apply extends_snoc|].
  eexists. split; [apply str_at_nth, nth_snoc_new|]. apply cstr_nul_free.
  pose proof (str_is_nul_free _ _ _ Hs) as Hn. clear - Hn.
  rewrite <- (firstn_skipn (Z.to_nat a) s) in Hn. apply nul_free_app in Hn. destruct Hn as [_ Hn].
  rewrite <- (firstn_skipn (Z.to_nat (b - a)) (skipn (Z.to_nat a) s)) in Hn. apply nul_free_app in Hn. apply Hn.
Qed.
Theorem C19_substring_rejects h v s i j fuel : str_is h v s ->
  ~ (exists a b, i = VFix a /\ j = VFix b /\ (0 <= a <= b)%Z /\ (b <= Z.of_nat (length s))%Z) ->
  exists e, l_substring fuel v i j h = HErr e h.
Proof.
  intros Hs Hn. unfold l_substring.
  assert (E : p_string_length v h = HOk (VFix (Z.of_nat (length s))) h).
  { pose proof (C19_string_length v h) as L. pose proof Hs as (bf & E & _). rewrite E in L.
    destruct L as (s' & Hs' & ->). now rewrite (str_is_fun _ _ _ _ Hs Hs'). }
  rewrite (bind_ok _ _ _ _ _ E).
  destruct i; try (eexists; reflexivity).
  destruct (Z.ltb_spec z 0); [destruct j; eexists; reflexivity|].
  destruct j; try (eexists; reflexivity).
  destruct (Z.ltb_spec z0 0); [eexists; reflexivity|].
  destruct (Z.ltb_spec (Z.of_nat (length s)) z0); [eexists; reflexivity|].
  destruct (Z.ltb_spec z0 z); [eexists; reflexivity|].
  exfalso. apply Hn. exists z, z0. repeat split; auto.
Qed.

(** [make-string]. *)
Theorem C19_make_string h n c : (0 <= n)%Z -> (n + 1 < 2 ^ 63)%Z -> c <> NUL ->
  exists r h', p_make_string (VFix n) (Some (VChar c)) h = HOk r h' /\ extends h h' /\ str_is h' r (repeat c (Z.to_nat n)).
Proof.
  intros Hn Hb Hc. unfold p_make_string. replace (0 <=? n)%Z with true by (symmetry; apply Z.leb_le; auto).
  unfold c_make_string. replace (n + 1 <? 2 ^ 63)%Z with true by (symmetry; apply Z.ltb_lt; auto).
  eexists _, _. split; [reflexivity|]. split; [apply extends_snoc|].
  eexists. split; [apply str_at_nth, nth_snoc_new|]. apply cstr_nul_free. now apply nul_free_repeat.
Qed.

(** [list->string] of characters has exactly those characters when none is NUL
    (and otherwise those before the first NUL). *)
Lemma take_chars_ok cs h v : list_at h v (map VChar cs) -> take_chars (length cs) v h = HOk cs h.
Proof.
  revert v; induction cs as [|c cs IH]; intros v Hl; auto. cbn [map length take_chars] in *.
  destruct (list_at_cons_inv _ _ _ _ Hl) as (l & d & -> & E & Hd & P).
  st P. cbv beta iota. st P. erewrite bind_ok by (apply IH; auto). reflexivity.
Qed.
Lemma for_each1_check cs fuel : forall h v, list_at h v (map VChar cs) -> length cs <= fuel ->
  for_each1 fuel (check_char "list->string") v h = HOk VVoid h.
Proof.
  revert fuel; induction cs as [|c cs IH]; intros fuel h v Hl Hf.
  - apply list_at_nil in Hl; subst. destruct fuel; reflexivity.
  - destruct fuel; [simpl in Hf; lia|]. cbn [map] in Hl.
    destruct (list_at_cons_inv _ _ _ _ Hl) as (l & d & -> & E & Hd & P). cbn [for_each1 nullp].
    st P. erewrite bind_ok by reflexivity. st P. apply IH; auto. simpl in Hf; lia.
Qed.
Theorem C19_list_to_string h v cs fuel : list_at h v (map VChar cs) -> length cs <= fuel ->
  exists r h', p_list_to_string fuel v h = HOk r h' /\ extends h h' /\ str_is h' r (cstr cs).
Proof.
  intros Hl Hf. unfold p_list_to_string, p_for_each.
  assert (Hn : Forall (fun xs => length xs = length cs) [map VChar cs]) by (constructor; [apply map_length|constructor]).
  assert (H2 : Forall2 (list_at h) [v] [map VChar cs]) by auto.
  assert (E1 : (check_args fuel "for-each" None [v];;; for_each1 fuel (check_char "list->string") v)%m h = HOk VVoid h).
  { rewrite (bind_ok _ _ _ _ _ (check_args_ok "for-each" fuel _ _ _ _ None H2 Hn Hf (or_introl eq_refl))).
    now apply (for_each1_check cs). }
  rewrite (bind_ok _ _ _ _ _ E1). unfold c_list_to_string.
  assert (E2 : list_length fuel v 0 h = HOk (0 + Z.of_nat (length (map VChar cs)))%Z h).
  { eapply list_length_ok; eauto. rewrite map_length; auto. }
  rewrite (bind_ok _ _ _ _ _ E2). rewrite Z.add_0_l, Nat2Z.id, map_length.
  rewrite (bind_ok _ _ _ _ _ (take_chars_ok _ _ _ Hl)).
  eexists _, _. split; [reflexivity|]. split; [apply extends_snoc|].
  eexists. split; [apply str_at_nth, nth_snoc_new|reflexivity].
Qed.

(** [string->list] gives the characters of the string followed by a NUL
    character, which is not one of them. *)
Lemma str_to_list_ok b : forall i h lst tl, i <= length b -> list_at h lst tl ->
  exists r h', str_to_list_loop b i lst h = HOk r h' /\ extends h h' /\
    list_at h' r (map VChar (firstn (S i) (b ++ [NUL])) ++ tl).
Proof.
  assert (F : forall (l : list byte) i c, nth_error l i = Some c -> firstn (S i) l = firstn i l ++ [c]).
  { induction l as [|a l IH]; intros [|i] c E; simpl in *; try discriminate; [congruence|]. f_equal. now apply IH. }
  induction i as [|i IH]; intros h lst tl Hi Hl; cbn [str_to_list_loop];
  (destruct (nth_error (b ++ [NUL]) _) as [c|] eqn:E; [|apply nth_error_None in E; rewrite app_length in E; simpl in E; lia]).
  - stc. eexists _, _. split; [reflexivity|]. split; [apply extends_snoc|]. rewrite (F _ _ _ E). cbn [firstn map app].
    now apply list_at_new.
  - stc. destruct (IH (h ++ [CPair (VChar c) lst]) (VPtr (length h)) (VChar c :: tl)) as (r & h' & Er & X & L); [lia|now apply list_at_new|].
    exists r, h'. split; [exact Er|]. split; [eapply extends_trans; eauto using extends_snoc|].
    rewrite (F _ _ _ E), map_app, <- app_assoc. exact L.
Qed.
Lemma cstr_split b : exists r, b ++ [NUL] = cstr b ++ NUL :: r.
Proof.
  induction b as [|c b [r IH]]; simpl; [exists []; auto|]. destruct (Ascii.eqb_spec c NUL) as [->|]; [exists (b ++ [NUL]); auto|].
  exists r. now rewrite IH.
Qed.
Theorem C19_string_to_list_partial h v s : str_is h v s ->
  exists r h', p_string_to_list v h = HOk r h' /\ extends h h' /\ list_at h' r (map VChar (s ++ [NUL])).
Proof.
  intros (b & H & <-). unfold p_string_to_list, if_str, stringp. rewrite H. unfold c_string_to_list. rewrite H.
  destruct (str_to_list_ok b (length (cstr b)) h VNull [] (cstr_length b) ltac:(constructor)) as (r & h' & E & X & L).
  exists r, h'. repeat split; auto. rewrite app_nil_r in L. destruct (cstr_split b) as [q Eq]. rewrite Eq in L.
  rewrite firstn_app in L. replace (S (length (cstr b)) - length (cstr b)) with 1 in L by lia.
  rewrite firstn_all2 in L by lia. exact L.
Qed.
Theorem C19_string_to_list_refuted : exists h v s r h' xs, str_is h v s /\ p_string_to_list v h = HOk r h' /\
  list_at h' r xs /\ xs <> map VChar s.
Proof.
  exists [CStr (s2b "ab")], (VPtr 0), (s2b "ab"). eexists _, _, [VChar "a"; VChar "b"; VChar NUL].
  split; [exists (s2b "ab"); auto|]. split; [reflexivity|].
  split; [repeat (econstructor; [reflexivity|]); constructor|discriminate].
Qed.
(** Converting back gives the string again nevertheless. *)
Theorem C19_list_to_string_inverse h v s r h' fuel : str_is h v s -> p_string_to_list v h = HOk r h' -> S (length s) <= fuel ->
  exists w h'', p_list_to_string fuel r h' = HOk w h'' /\ str_is h'' w s.
Proof.
  intros Hs E Hf. destruct (C19_string_to_list_partial _ _ _ Hs) as (r' & h1 & E' & X & L).
  rewrite E in E'. injection E' as <- <-.
  destruct (C19_list_to_string h' r (s ++ [NUL]) fuel L) as (w & h2 & E2 & _ & W).
  - rewrite app_length. simpl. lia.
  - exists w, h2. split; auto. replace s with (cstr (s ++ [NUL])); auto.
    pose proof (str_is_nul_free _ _ _ Hs) as Hn. clear - Hn.
    induction s as [|c s IH]; auto. simpl. destruct (Ascii.eqb_spec c NUL) as [->|]; [exfalso; apply Hn; left; auto|].
    f_equal. apply IH. intros C. apply Hn. right; auto.
Qed.

(** ** Numbers *)

(** [number->string] gives the decimal numeral. *)
Theorem C20_number_to_string z h : is_long z ->
  exists r h', p_number_to_string (VFix z) h = HOk r h' /\ extends h h' /\ str_is h' r (print_long z).
Proof.
  intros Hz. unfold p_number_to_string, c_number_to_string.
  replace (Nat.leb (length (print_long z)) 24) with true by (symmetry; apply Nat.leb_le, print_long_length; auto).
  eexists _, _. split; [reflexivity|]. split; [apply extends_snoc|].
  eexists. split; [apply str_at_nth, nth_snoc_new|].
  pose proof (print_long_nul_free z) as Hn. induction (print_long z) as [|c s IH].
  - simpl app. destruct (24 - length (@nil byte)); reflexivity.
  - remember (24 - length (c :: s)) as k. clear Heqk. cbn [app cstr].
    destruct (Ascii.eqb_spec c NUL) as [->|]; [exfalso; apply Hn; left; auto|]. f_equal.
    assert (Hn' : nul_free s) by (intros C; apply Hn; right; auto). clear - Hn'.
    induction s as [|c s IH]; [destruct k; reflexivity|]. cbn [app cstr].
    destruct (Ascii.eqb_spec c NUL) as [->|]; [exfalso; apply Hn'; left; auto|]. f_equal. apply IH.
    intros C; apply Hn'; right; auto.
Qed.
(** The round trip is the identity exactly on 32-bit integers. *)
Theorem C20_round_trip_partial z h r h' : is_long z -> p_number_to_string (VFix z) h = HOk r h' ->
  (p_string_to_number r h' = HOk (VFix z) h' <-> (- 2 ^ 31 <= z < 2 ^ 31)%Z).
Proof.
  intros Hz E. destruct (C20_number_to_string z h Hz) as (r' & h1 & E' & X & S). rewrite E in E'. injection E' as <- <-.
  destruct S as (b & Hb & Hc). unfold p_string_to_number, if_str, stringp. rewrite Hb.
  unfold c_string_to_number. rewrite Hb, Hc. unfold atoi. rewrite strtol_print.
  assert (Ec : clamp_long z = z).
  { unfold clamp_long, is_long in *. lia. }
  rewrite Ec. unfold wrap_int. split.
  - intros R0. assert (R : ((z + 2 ^ 31) mod 2 ^ 32 - 2 ^ 31 = z)%Z) by congruence. clear R0.
    pose proof (Z.mod_pos_bound (z + 2 ^ 31) (2 ^ 32) ltac:(reflexivity)) as B.
    change (2 ^ 32)%Z with (2 * 2 ^ 31)%Z in *. remember (2 ^ 31)%Z as P. lia.
  - intros R. rewrite Z.mod_small.
    + do 2 f_equal. lia.
    + change (2 ^ 32)%Z with (2 * 2 ^ 31)%Z. remember (2 ^ 31)%Z as P. lia.
Qed.
Theorem C20_round_trip_refuted : exists z r h', is_long z /\ p_number_to_string (VFix z) [] = HOk r h' /\
  p_string_to_number r h' = HOk (VFix 0) h' /\ z <> 0%Z.
Proof.
  exists (2 ^ 32)%Z. eexists _, _. split; [split; [apply Z.leb_le|apply Z.ltb_lt]; reflexivity|].
  split; [reflexivity|]. split; [vm_compute; reflexivity|discriminate].
Qed.

(** What string->number makes of a text: white space, a sign and digits count, everything
    after the last digit is dropped (a text without digits is 0), and the number is cut to the
    range of [long] and then to its low 32 bits. *)
Definition white (c : byte) : Prop := In c (" "%char :: ["009"; "010"; "011"; "012"; "013"]%char).
Definition decimal_digit (c : byte) : Prop := In c (s2b "0123456789").
Inductive signed : list byte -> Z -> Prop :=
| SgNone : signed [] 1
| SgPlus : signed ["+"%char] 1
| SgMinus : signed ["-"%char] (-1).
(** The number that digits denote, the lowest digit first. *)
Fixpoint decimal_rev (l : list byte) : Z :=
  match l with [] => 0 | c :: r => (Z.of_N (N_of_ascii c) - 48) + 10 * decimal_rev r end.
Definition decimal (l : list byte) : Z := decimal_rev (rev l).
Definition low32 (z r : Z) : Prop := (- 2 ^ 31 <= r < 2 ^ 31)%Z /\ exists k, z = (r + k * 2 ^ 32)%Z.
Definition nearest_long (z r : Z) : Prop :=
  (- 2 ^ 63 <= r < 2 ^ 63)%Z /\ forall y, (- 2 ^ 63 <= y < 2 ^ 63)%Z -> (Z.abs (z - r) <= Z.abs (z - y))%Z.
Lemma decimal_digit_spec c : is_digit c = true <-> decimal_digit c.
Proof.
  split.
  - destruct c as [[] [] [] [] [] [] [] []]; intros H; vm_compute in H; try discriminate; cbn; auto 12.
  - intros H. cbn in H. repeat (destruct H as [<-|H]; [reflexivity|]). destruct H.
Qed.
Lemma white_spec c : is_space c = true <-> white c.
Proof.
  split.
  - destruct c as [[] [] [] [] [] [] [] []]; intros H; vm_compute in H; try discriminate; cbn; auto 12.
  - intros H. cbn in H. repeat (destruct H as [<-|H]; [reflexivity|]). destruct H.
Qed.
Lemma digits_decimal l : Forall decimal_digit l -> Z.of_N (digits_value l) = decimal l.
Proof.
  intros D. unfold decimal, digits_value. rewrite <- fold_left_rev_right.
  apply Forall_rev in D. induction D as [|c r D _ IH]; [reflexivity|]. cbn [fold_right decimal_rev]. rewrite <- IH.
  assert (E : Z.of_N (char_digit c) = (Z.of_N (N_of_ascii c) - 48)%Z).
  { apply decimal_digit_spec in D. unfold is_digit in D. apply andb_true_iff in D. destruct D as [D _]. apply N.leb_le in D. unfold char_digit. lia. }
  rewrite N2Z.inj_add, N2Z.inj_mul, E. lia.
Qed.
Lemma take_digits_app ds r : Forall decimal_digit ds -> match r with [] => True | c :: _ => ~ decimal_digit c end -> take_digits (ds ++ r) = ds.
Proof.
  intros D N. induction D as [|c ds D _ IH].
  - destruct r as [|c r]; auto. cbn. rewrite <- decimal_digit_spec in N. destruct (is_digit c); [contradiction|auto].
  - cbn. apply decimal_digit_spec in D. now rewrite D, IH.
Qed.
Lemma skip_white w s : Forall white w -> match s with [] => True | c :: _ => ~ white c end -> skip_space (w ++ s) = s.
Proof.
  intros W N. induction W as [|c w W _ IH].
  - destruct s as [|c s]; auto. cbn. rewrite <- white_spec in N. destruct (is_space c); [contradiction|auto].
  - cbn. apply white_spec in W. now rewrite W.
Qed.
Theorem C20_decimal_text h v w sg sn ds r :
  str_is h v (w ++ sg ++ ds ++ r) -> Forall white w -> signed sg sn -> Forall decimal_digit ds ->
  match r with [] => True | c :: _ => ~ decimal_digit c /\ (sg ++ ds = [] -> ~ white c /\ c <> "+"%char /\ c <> "-"%char) end ->
  exists y z, p_string_to_number v h = HOk (VFix z) h /\ nearest_long (sn * decimal ds) y /\ low32 y z.
Proof.
  intros (b & Hb & Hc) W SG D N. exists (clamp_long (sn * decimal ds)), (wrap_int (clamp_long (sn * decimal ds))).
  assert (N1 : match r with [] => True | c :: _ => ~ decimal_digit c end) by (destruct r; tauto).
  assert (TD := take_digits_app ds r D N1). assert (DD := digits_decimal ds D).
  assert (NW : forall c, decimal_digit c -> ~ white c /\ c <> "+"%char /\ c <> "-"%char).
  { intros c H. rewrite <- white_spec. cbn in H. repeat (destruct H as [<-|H]; [repeat split; discriminate|]). destruct H. }
  assert (ST : strtol (cstr b) = clamp_long (sn * decimal ds)).
  { rewrite Hc. unfold strtol. cbv zeta. rewrite skip_white; auto.
    - destruct SG; cbn [app].
      + assert (F : forall c q, ds ++ r = c :: q -> c <> "+"%char /\ c <> "-"%char).
        { intros c q E. destruct ds as [|d ds]; [|injection E as -> _; inversion D; subst; now apply NW].
          cbn in E. subst r. now apply N. }
        rewrite Z.mul_1_l. destruct (ds ++ r) as [|c q] eqn:E; [destruct ds; [reflexivity|discriminate]|].
        destruct (F _ _ eq_refl) as [F1 F2]. apply Ascii.eqb_neq in F1, F2. rewrite F1, F2, TD, DD. reflexivity.
      + rewrite Z.mul_1_l. cbn -[Z.mul]. rewrite TD, DD. reflexivity.
      + cbn -[Z.mul]. rewrite TD, DD. f_equal.
    - destruct SG; cbn [app]; try (rewrite <- white_spec; discriminate).
      destruct ds as [|d ds]; [|inversion D; subst; now apply NW]. cbn [app] in N |- *. destruct r; [auto|]. now apply N. }
  unfold p_string_to_number, if_str, stringp, c_string_to_number. rewrite Hb. unfold atoi. rewrite ST. split; [reflexivity|]. split.
  - unfold nearest_long, clamp_long. generalize (sn * decimal ds)%Z. intros x. change (2 ^ 63)%Z with 9223372036854775808%Z.
    split; [lia|]. intros y Y. lia.
  - unfold low32, wrap_int. generalize (clamp_long (sn * decimal ds)). intros y.
    pose proof (Z.mod_pos_bound (y + 2 ^ 31) (2 ^ 32) ltac:(reflexivity)). split; [lia|].
    exists ((y + 2 ^ 31) / 2 ^ 32)%Z. pose proof (Z.div_mod (y + 2 ^ 31) (2 ^ 32) ltac:(discriminate)). lia.
Qed.
(** (string->number "  -12 apples") *)
Example C20_decimal_text_case : exists w sg sn ds r,
  s2b "  -12 apples" = w ++ sg ++ ds ++ r /\ Forall white w /\ signed sg sn /\ Forall decimal_digit ds /\ (sn * decimal ds = -12)%Z /\
  match r with [] => True | c :: _ => ~ decimal_digit c /\ (sg ++ ds = [] -> ~ white c /\ c <> "+"%char /\ c <> "-"%char) end.
Proof.
  exists (s2b "  "), ["-"%char], (-1)%Z, (s2b "12"), (s2b " apples"). split; [reflexivity|].
  split; [apply Forall_forall; intros c I; apply white_spec; cbn in I; repeat (destruct I as [<-|I]; [reflexivity|]); destruct I|]. split; [constructor|]. split; [apply Forall_forall; intros c I; apply decimal_digit_spec; cbn in I; repeat (destruct I as [<-|I]; [reflexivity|]); destruct I|]. split; [reflexivity|].
  cbn [s2b list_ascii_of_string]. split; [rewrite <- decimal_digit_spec; discriminate|discriminate].
Qed.

(** Arguments of the wrong kind: an error that names the procedure and the argument, and
    nothing changes.  string-append and make-string report an error too, but about a variable
    of their own. *)
Theorem C19_conversions_reject h v : str_at h v = None -> p_string_to_list v h = HErr (EArg "string->list" v) h.
Proof. intros H. unfold p_string_to_list, if_str, stringp. now rewrite H. Qed.
Theorem C19_append_rejects fuel args h : (exists v, In v args /\ str_at h v = None) -> p_string_append fuel args h = HErr (EUnbound "s") h.
Proof.
  intros (v & I & E).
  assert (C : check_strings args h = HErr (EUnbound "s") h).
  { induction args as [|x args IH]; [destruct I|]. cbn. unfold stringp in *. destruct I as [->|I]; [now rewrite E|].
    destruct (str_at h x); auto. }
  unfold p_string_append. destruct args as [|x [|y args]]; [destruct I| |]; unfold bind at 1; now rewrite C.
Qed.
Theorem C19_make_string_rejects n c h :
  (forall z, n = VFix z -> (z < 0)%Z) -> p_make_string n c h = HErr (EUnbound "len") h.
Proof.
  intros H. unfold p_make_string. destruct n; try reflexivity.
  replace (0 <=? z)%Z with false; [reflexivity|]. symmetry. apply Z.leb_gt. now apply H.
Qed.
Theorem C19_make_string_rejects_fill n c h :
  (0 <= n)%Z -> (forall x, c <> VChar x) -> p_make_string (VFix n) (Some c) h = HErr (EUnbound "init") h.
Proof.
  intros H C. unfold p_make_string. apply Z.leb_le in H. rewrite H. destruct c; try reflexivity. now elim (C c).
Qed.
Theorem C20_rejects h v :
  ((forall z, v <> VFix z) -> p_number_to_string v h = HErr (EArg "number->string" v) h) /\
  (str_at h v = None -> p_string_to_number v h = HErr (EArg "string->number" v) h).
Proof.
  split; intros H.
  - destruct v; try reflexivity. now elim (H z).
  - unfold p_string_to_number, if_str, stringp. now rewrite H.
Qed.
Theorem C51_rejects h v :
  ((forall c, v <> VChar c) -> p_char_to_integer v h = HErr (EArg "char->integer" v) h) /\
  ((forall z, v <> VFix z) -> p_integer_to_char v h = HErr (EArg "integer->char" v) h) /\
  ((forall n, v <> VSym n) -> (forall n i, v <> VGensym n i) -> p_symbol_to_string v h = HErr (EArg "symbol->string" v) h) /\
  (str_at h v = None -> p_string_to_symbol v h = HErr (EArg "string->symbol" v) h).
Proof.
  split; [|split; [|split]]; intros H.
  - destruct v; try reflexivity. now elim (H c).
  - destruct v; try reflexivity. now elim (H z).
  - intros G. destruct v; try reflexivity; [now elim (H name)|now elim (G name id)].
  - unfold p_string_to_symbol, if_str, stringp. now rewrite H.
Qed.
Example rejects_cases :
  p_string_to_number (VFix 1) [] = HErr (EArg "string->number" (VFix 1)) [] /\
  p_string_append 5 [VPtr 0; VNull] [CStr (s2b "a")] = HErr (EUnbound "s") [CStr (s2b "a")].
Proof. split; reflexivity. Qed.

(** ** Characters and symbols *)

(** [integer->char] undoes [char->integer] for every character; the other way
    round exactly for the integers from -128 to 127. *)
Theorem C51_char_round_trip c h :
  exists z, p_char_to_integer (VChar c) h = HOk (VFix z) h /\ p_integer_to_char (VFix z) h = HOk (VChar c) h.
Proof.
  eexists. split; [reflexivity|]. cbn. unfold ret. do 2 f_equal.
  destruct c as [[] [] [] [] [] [] [] []]; reflexivity.
Qed.
Lemma char_int_range c : (-128 <= c_char_to_integer c < 128)%Z.
Proof.
  unfold c_char_to_integer. assert (N_of_ascii c < 256)%N by apply N_ascii_bounded.
  destruct (Z.ltb_spec (Z.of_N (N_of_ascii c)) 128); lia.
Qed.
Theorem C51_integer_round_trip z h :
  (exists c, p_integer_to_char (VFix z) h = HOk c h /\ p_char_to_integer c h = HOk (VFix z) h) <-> (-128 <= z < 128)%Z.
Proof.
  split.
  - intros (c & [= <-] & H). cbn in H. injection H as <-. apply char_int_range.
  - intros Hz. eexists. split; [reflexivity|]. cbn. unfold ret. do 2 f_equal.
    unfold c_char_to_integer, c_integer_to_char.
    pose proof (Z.mod_pos_bound z 256 ltac:(reflexivity)).
    rewrite N_ascii_embedding by lia. rewrite Z2N.id by lia.
    destruct (Z.le_gt_cases 0 z).
    + rewrite Z.mod_small by lia. destruct (Z.ltb_spec z 128); lia.
    + replace (z mod 256)%Z with (z + 256)%Z.
      * destruct (Z.ltb_spec (z + 256) 128); lia.
      * symmetry. replace z with (z + 256 + (-1) * 256)%Z at 1 by lia. rewrite Z.mod_add by lia. apply Z.mod_small. lia.
Qed.
(** A character above 127 converts to a negative number. *)
Theorem C51_nonnegative_refuted : exists c, p_char_to_integer (VChar c) [] = HOk (VFix (-1)) [].
Proof. exists (ascii_of_N 255). reflexivity. Qed.

(** [string->symbol] undoes [symbol->string], and the other way round. *)
Theorem C51_symbol_round_trip n h : nul_free n ->
  exists s h', p_symbol_to_string (VSym n) h = HOk s h' /\ extends h h' /\ str_is h' s n /\
    p_string_to_symbol s h' = HOk (VSym n) h'.
Proof.
  intros Hn. eexists _, _. split; [reflexivity|]. split; [apply extends_snoc|].
  assert (E : str_at (h ++ [CStr (cstr n)]) (VPtr (length h)) = Some (cstr n)) by apply str_at_nth, nth_snoc_new.
  rewrite (cstr_nul_free n Hn) in *. split.
  - eexists. split; [exact E|]. now apply cstr_nul_free.
  - unfold p_string_to_symbol, if_str, stringp, c_string_to_symbol. rewrite E. now rewrite (cstr_nul_free n Hn).
Qed.
Theorem C51_string_round_trip h v s : str_is h v s ->
  exists w h', p_string_to_symbol v h = HOk (VSym s) h /\ p_symbol_to_string (VSym s) h = HOk w h' /\ str_is h' w s.
Proof.
  intros Hs. pose proof (str_is_nul_free _ _ _ Hs) as Hn. destruct Hs as (b & E & <-).
  destruct (C51_symbol_round_trip (cstr b) h Hn) as (w & h' & E1 & X & S & _). exists w, h'. repeat split; auto.
  unfold p_string_to_symbol, if_str, stringp, c_string_to_symbol. now rewrite E.
Qed.

(** ** Concrete instances *)
Definition sh : heap := [CStr (s2b "hello"); CStr (s2b ", "); CStr (s2b "world" ++ [NUL; "x"%char])].
Example sh_strings : Forall2 (str_is sh) [VPtr 0; VPtr 1; VPtr 2] [s2b "hello"; s2b ", "; s2b "world"].
Proof. repeat constructor; eexists; split; reflexivity. Qed.
Example run_append : p_string_append 40 [VPtr 0; VPtr 1; VPtr 2] sh = HOk (VPtr 3) (sh ++ [CStr (s2b "hello, world")]).
Proof. reflexivity. Qed.
Example run_substring : l_substring 9 (VPtr 0) (VFix 1) (VFix 4) sh = HOk (VPtr 3) (sh ++ [CStr (s2b "ell")]).
Proof. reflexivity. Qed.
Example run_set : exists h', p_string_set (VPtr 2) (VFix 0) (VChar "W") sh = HOk VVoid h' /\ str_is h' (VPtr 2) (s2b "World").
Proof. eexists. split; [reflexivity|]. eexists; split; reflexivity. Qed.
Example run_num : exists r h', p_number_to_string (VFix (-1234567890)) [] = HOk r h' /\ str_is h' r (s2b "-1234567890") /\
  p_string_to_number r h' = HOk (VFix (-1234567890)) h'.
Proof. eexists _, _. split; [reflexivity|]. split; [eexists; split; reflexivity|]. vm_compute. reflexivity. Qed.
Print Assumptions C19_string_length.
Print Assumptions C19_string_ref.
Print Assumptions C19_string_set.
Print Assumptions C19_ref_after_set.
Print Assumptions C19_set_nul_refuted.
Print Assumptions C19_string_append.
Print Assumptions C19_append_fresh_refuted.
Print Assumptions C19_substring.
Print Assumptions C19_substring_rejects.
Print Assumptions C19_make_string.
Print Assumptions C19_list_to_string.
Print Assumptions C19_string_to_list_partial.
Print Assumptions C19_string_to_list_refuted.
Print Assumptions C19_list_to_string_inverse.
Print Assumptions C20_number_to_string.
Print Assumptions C20_round_trip_partial.
Print Assumptions C20_round_trip_refuted.
Print Assumptions C51_char_round_trip.
Print Assumptions C51_integer_round_trip.
Print Assumptions C51_nonnegative_refuted.
Print Assumptions C51_symbol_round_trip.
Print Assumptions C51_string_round_trip.
Print Assumptions C20_decimal_text.
Print Assumptions C19_conversions_reject.
Print Assumptions C19_append_rejects.
Print Assumptions C19_make_string_rejects.
Print Assumptions C19_make_string_rejects_fill.
Print Assumptions C20_rejects.
Print Assumptions C51_rejects.
