(** Specification and proofs for the FASL serializer. *)
From Coq Require Import ZArith NArith List Bool Ascii Lia.
From Verif Require Import Base Fasl.
Import ListNotations.
Local Open Scope N_scope.

(** ** Specification *)

(** A datum FASL has a representation for: nothing in it is a box, a syntax
    object, a procedure, a port, ... *)
Inductive representable : obj -> Prop :=
| rp_null : representable ONull
| rp_true : representable OTrue
| rp_false : representable OFalse
| rp_eof : representable OEof
| rp_void : representable OVoid
| rp_sym n : representable (OSym n)
| rp_gensym n i : representable (OGensym n i)
| rp_str b : representable (OStr b)
| rp_fix z : representable (OFix z)
| rp_char c : representable (OChar c)
| rp_pair a d : representable a -> representable d -> representable (OPair a d)
| rp_ev : representable OEmptyVec
| rp_vec l : Forall representable l -> representable (OVec l)
| rp_brtd : representable OBaseRtd
| rp_rec r l : representable r -> Forall representable l -> representable (ORec r l).

(** Some position of the datum holds a value FASL has no encoding for: a box, a
    syntax object, or any object that is not plain data. *)
Inductive holds_unsupported : obj -> Prop :=
| hu_box o : holds_unsupported (OBox o)
| hu_syntax e l : holds_unsupported (OSyntax e l)
| hu_other k : holds_unsupported (OOther k)
| hu_car a d : holds_unsupported a -> holds_unsupported (OPair a d)
| hu_cdr a d : holds_unsupported d -> holds_unsupported (OPair a d)
| hu_vec l : Exists holds_unsupported l -> holds_unsupported (OVec l)
| hu_rtd r l : holds_unsupported r -> holds_unsupported (ORec r l)
| hu_field r l : Exists holds_unsupported l -> holds_unsupported (ORec r l).

(** A datum that exists in the memory of a 64-bit machine ([long] fixnums,
    fewer than 2^63 elements, an [int] number of record fields), whose symbols
    are interned and whose strings hold no NUL character. *)
Inductive faithful : obj -> Prop :=
| ff_null : faithful ONull
| ff_true : faithful OTrue
| ff_false : faithful OFalse
| ff_eof : faithful OEof
| ff_void : faithful OVoid
| ff_sym n : nul_free n -> N.of_nat (length n) < 2 ^ 63 -> faithful (OSym n)
| ff_str b : nul_free b -> N.of_nat (length b) < 2 ^ 63 -> faithful (OStr b)
| ff_fix z : is_long z -> faithful (OFix z)
| ff_char c : faithful (OChar c)
| ff_pair a d : faithful a -> faithful d ->
    obj_list_length (OPair a d) < 2 ^ 63 -> faithful (OPair a d)
| ff_ev : faithful OEmptyVec
| ff_vec l : Forall faithful l -> N.of_nat (length l) < 2 ^ 63 -> faithful (OVec l)
| ff_brtd : faithful OBaseRtd
| ff_rec r l : faithful r -> Forall faithful l -> N.of_nat (length l) < 2 ^ 31 ->
    faithful (ORec r l).

(** ** Words *)

Lemma land127 v : N.land v 127 = v mod 128.
Proof. change 127 with (N.ones 7). rewrite N.land_ones. reflexivity. Qed.

Lemma ubyte_parts b c :
  c = 0 \/ c = 1 ->
  N.land (N.lor (N.shiftl b 1) c) 1 = c /\ N.shiftr (N.lor (N.shiftl b 1) c) 1 = b
  /\ N.lor (N.shiftl b 1) c = 2 * b + c.
Proof. intros [->| ->]; destruct b; repeat split; reflexivity. Qed.

Lemma shift_join v off :
  N.lor (N.shiftl (N.land v 127) off) (N.shiftl (N.shiftr v 7) (off + 7)) = N.shiftl v off.
Proof.
  apply N.bits_inj; intros i.
  rewrite N.lor_spec. change 127 with (N.ones 7).
  destruct (N.lt_ge_cases i off) as [Hi|Hi].
  - rewrite !N.shiftl_spec_low by lia. reflexivity.
  - rewrite (N.shiftl_spec_high' v) by lia.
    rewrite (N.shiftl_spec_high' (N.land v (N.ones 7))) by lia.
    rewrite N.land_spec.
    destruct (N.lt_ge_cases i (off + 7)) as [Hj|Hj].
    + rewrite N.shiftl_spec_low by lia. rewrite N.ones_spec_low by lia.
      rewrite andb_true_r, orb_false_r. reflexivity.
    + rewrite N.shiftl_spec_high' by lia. rewrite N.ones_spec_high by lia.
      rewrite andb_false_r, orb_false_l, N.shiftr_spec'. f_equal. lia.
Qed.

Lemma pow2_split a b : (2 ^ (a + b) = 2 ^ a * 2 ^ b)%N.
Proof. apply N.pow_add_r. Qed.

Lemma uptr_loop r : forall u v rest,
  (0 < r <= 10)%nat ->
  v < 2 ^ (7 * N.of_nat r - 6) ->
  read_uptr_loop r u (70 - 7 * N.of_nat r) (write_uptr_loop r v ++ rest)
  = ROk (N.lor u (N.shiftl v (70 - 7 * N.of_nat r))) rest.
Proof.
  induction r as [|r IH]; intros u v rest Hr Hv; [lia|].
  cbn [write_uptr_loop read_uptr_loop app].
  set (off := 70 - 7 * N.of_nat (S r)).
  set (u' := N.shiftr v 7).
  set (c := if u' =? 0 then 0 else 1).
  assert (Hc : c = 0 \/ c = 1) by (unfold c; destruct (u' =? 0); auto).
  destruct (ubyte_parts (N.land v 127) c Hc) as (P1 & P2 & P3).
  assert (Hb : N.land v 127 < 128) by (rewrite land127; apply N.mod_lt; lia).
  unfold get_byte. fold u'. fold c.
  rewrite N_ascii_embedding by (rewrite P3; destruct Hc as [->| ->]; lia).
  rewrite P1, P2.
  assert (Hshift : N.shiftl (N.land v 127) off mod word_mod = N.shiftl (N.land v 127) off).
  { apply N.mod_small. rewrite N.shiftl_mul_pow2. unfold word_mod.
    apply N.le_lt_trans with (v * 2 ^ off).
    - apply N.mul_le_mono_r. rewrite land127. apply N.mod_le; lia.
    - replace 64 with ((7 * N.of_nat (S r) - 6) + off) by (unfold off; lia).
      rewrite pow2_split. apply N.mul_lt_mono_pos_r; [|exact Hv].
      apply N.neq_0_lt_0, N.pow_nonzero; lia. }
  rewrite Hshift.
  assert (Hjoin := shift_join v off). fold u' in Hjoin.
  unfold c in *; clear c. destruct (N.eqb_spec u' 0) as [E|E].
  - cbn [app N.eqb]. rewrite E in Hjoin. rewrite N.shiftl_0_l, N.lor_0_r in Hjoin.
    rewrite Hjoin. reflexivity.
  - cbn [N.eqb Pos.eqb].
    destruct r as [|r'].
    { exfalso. apply E. unfold u'. rewrite N.shiftr_div_pow2. apply N.div_small.
      eapply N.lt_trans; [exact Hv|]. reflexivity. }
    set (r := S r') in *.
    replace (off + 7) with (70 - 7 * N.of_nat r) by (unfold off; lia).
    rewrite IH; [| lia |].
    + f_equal. rewrite <- N.lor_assoc. f_equal.
      replace (70 - 7 * N.of_nat r) with (off + 7) by (unfold off; lia). exact Hjoin.
    + unfold u'. rewrite N.shiftr_div_pow2. apply N.div_lt_upper_bound; [lia|].
      rewrite <- pow2_split.
      replace (7 + (7 * N.of_nat r - 6)) with (7 * N.of_nat (S r) - 6) by lia. exact Hv.
Qed.

Lemma uptr_roundtrip u rest : u < 2 ^ 64 -> read_uptr (write_uptr u ++ rest) = ROk u rest.
Proof.
  intros H. unfold read_uptr, write_uptr.
  assert (E := uptr_loop 10 0 u rest).
  change (70 - 7 * N.of_nat 10) with 0 in E. rewrite E; [|lia|exact H].
  rewrite N.lor_0_l, N.shiftl_0_r. reflexivity.
Qed.

(** ** Byte strings *)

Lemma read_bytes_app bs : forall fuel rest,
  (length bs < fuel)%nat ->
  read_bytes fuel (Z.of_nat (length bs)) (bs ++ rest) = ROk bs rest.
Proof.
  induction bs as [|b bs IH]; intros fuel rest Hf; (destruct fuel as [|f]; [simpl in Hf; lia|]).
  - reflexivity.
  - cbn [read_bytes]. destruct (Z.leb_spec (Z.of_nat (length (b :: bs))) 0) as [H|H].
    { simpl length in H; lia. }
    cbn [app get_byte]. rewrite ascii_N_embedding.
    replace (Z.of_nat (length (b :: bs)) - 1)%Z with (Z.of_nat (length bs)) by (simpl length; lia).
    rewrite IH by (simpl in Hf; lia). reflexivity.
Qed.

Lemma long_of_len n : N.of_nat n < 2 ^ 63 -> long_of_u64 (N.of_nat n) = Z.of_nat n.
Proof.
  intros H. unfold long_of_u64, word_max_long.
  destruct (N.ltb_spec (N.of_nat n) (2 ^ 63)); lia.
Qed.

Lemma cstr_roundtrip b fuel rest :
  nul_free b -> N.of_nat (length b) < 2 ^ 63 -> (length b < fuel)%nat ->
  rbind (read_uptr (write_cstr b ++ rest)) (fun len s =>
    rbind (read_bytes fuel (long_of_u64 len) s) (fun bs s => ROk (cstr bs) s))
  = ROk b rest.
Proof.
  intros Hn Hl Hf. unfold write_cstr. rewrite (cstr_nul_free b Hn), <- app_assoc.
  rewrite uptr_roundtrip by lia. cbn [rbind]. rewrite long_of_len by exact Hl.
  rewrite read_bytes_app by exact Hf. cbn [rbind]. rewrite cstr_nul_free; auto.
Qed.

(** ** Objects *)

Fixpoint write_elts (l : list obj) : option (list byte) :=
  match l with [] => Some [] | x :: r => oapp (write_fasl x) (write_elts r) end.

Fixpoint write_chain (it : obj) : option (list byte) :=
  match it with
  | OPair a d => oapp (write_fasl a) (write_chain d)
  | _ => write_fasl it
  end.

Lemma write_pair_eq a d :
  write_fasl (OPair a d) =
  oapp (Some (tag FASL_PAIR :: write_uptr (u64_of_long (Z.of_N (obj_list_length (OPair a d))))))
       (write_chain (OPair a d)).
Proof. reflexivity. Qed.

Lemma write_vec_eq l :
  write_fasl (OVec l) =
  oapp (Some (tag FASL_VECTOR :: write_uptr (N.of_nat (length l)))) (write_elts l).
Proof. reflexivity. Qed.

Lemma write_rec_eq rtd l :
  write_fasl (ORec rtd l) =
  oapp (Some (tag FASL_RECORD :: write_uptr (N.of_nat (length l))))
       (oapp (write_fasl rtd) (write_elts l)).
Proof. reflexivity. Qed.

Lemma oapp_some a b w : oapp a b = Some w ->
  exists x y, a = Some x /\ b = Some y /\ w = x ++ y.
Proof. destruct a, b; simpl; intros H; inversion H; eauto. Qed.

(** [reads w x]: with enough fuel, [w] is read as [x] whatever follows. *)
Definition reads (w : list byte) (x : obj) : Prop :=
  exists n, forall fuel rest, (n <= fuel)%nat -> read_fasl fuel (w ++ rest) = ROk x rest.

Definition reads_seq (w : list byte) (xs : list obj) : Prop :=
  exists n, forall fuel rest, (n <= fuel)%nat ->
    read_seq fuel (Z.of_nat (length xs)) (w ++ rest) = ROk xs rest.

Lemma reads_seq_nil : reads_seq [] [].
Proof. exists 1%nat. intros [|f] rest H; [lia|reflexivity]. Qed.

Lemma reads_seq_cons w x ws xs :
  reads w x -> reads_seq ws xs -> reads_seq (w ++ ws) (x :: xs).
Proof.
  intros [n Hn] [m Hm]. exists (S (max n m)). intros [|f] rest H; [lia|].
  cbn [read_seq].
  destruct (Z.leb_spec (Z.of_nat (length (x :: xs))) 0) as [C|C]; [simpl length in C; lia|].
  rewrite <- app_assoc, Hn by lia. cbn [rbind].
  replace (Z.of_nat (length (x :: xs)) - 1)%Z with (Z.of_nat (length xs)) by (simpl length; lia).
  rewrite Hm by lia. reflexivity.
Qed.

Definition goodw (x : obj) : Prop :=
  exists w, write_fasl x = Some w /\ reads w x.

Lemma elts_good l : Forall goodw l ->
  exists w, write_elts l = Some w /\ reads_seq w l.
Proof.
  induction 1 as [|x l [w [Hw Rw]] _ [ws [Hws Rws]]].
  - exists []. split; [reflexivity|apply reads_seq_nil].
  - exists (w ++ ws). simpl. rewrite Hw, Hws. split; [reflexivity|].
    apply reads_seq_cons; auto.
Qed.

(** The cdr chain of a pair, split into its elements and its tail. *)
Fixpoint chain_elts (o : obj) : list obj :=
  match o with OPair a d => a :: chain_elts d | _ => [] end.
Fixpoint chain_tail (o : obj) : obj :=
  match o with OPair a d => chain_tail d | _ => o end.

Lemma chain_join o : fold_right OPair (chain_tail o) (chain_elts o) = o.
Proof. induction o; simpl; auto. now rewrite IHo2. Qed.

Lemma chain_len o : obj_list_length o = N.of_nat (length (chain_elts o)).
Proof. induction o; simpl; auto. rewrite IHo2. lia. Qed.

Definition chain_good (o : obj) : Prop :=
  exists ws wt, write_chain o = Some (ws ++ wt)
    /\ reads_seq ws (chain_elts o) /\ reads wt (chain_tail o).

Lemma chain_good_atom o : chain_elts o = [] -> chain_tail o = o ->
  write_chain o = write_fasl o -> goodw o -> chain_good o.
Proof.
  intros E T W [w [Hw Rw]]. exists [], w. rewrite W, E, T. simpl.
  split; auto. split; auto. apply reads_seq_nil.
Qed.

Lemma chain_good_pair a d : goodw a -> chain_good d -> chain_good (OPair a d).
Proof.
  intros [w [Hw Rw]] (ws & wt & Hc & Rs & Rt).
  exists (w ++ ws), wt. simpl. rewrite Hw, Hc. simpl. rewrite app_assoc.
  split; auto. split; auto. apply reads_seq_cons; auto.
Qed.

Lemma read_pair_eq f s :
  read_fasl (S f) (tag FASL_PAIR :: s) =
  rbind (read_uptr s) (fun len s =>
  rbind (read_seq f (Z.max 1 (long_of_u64 len)) s) (fun xs s =>
  rbind (read_fasl f s) (fun tl s =>
  ROk (fold_right OPair tl xs) s))).
Proof. reflexivity. Qed.

Lemma goodw_pair a d :
  chain_good (OPair a d) -> obj_list_length (OPair a d) < 2 ^ 63 -> goodw (OPair a d).
Proof.
  intros (ws & wt & Hc & [n Hn] & [m Hm]) Hlen.
  eexists. rewrite write_pair_eq, Hc. split; [reflexivity|].
  exists (S (max n m)). intros [|f] rest Hf; [exfalso; lia|].
  rewrite <- app_assoc. rewrite <- app_comm_cons, read_pair_eq.
  set (L := obj_list_length (OPair a d)) in *.
  assert (EL : u64_of_long (Z.of_N L) = L).
  { rewrite u64_of_long_small; lia. }
  rewrite EL, uptr_roundtrip by lia. cbn [rbind].
  assert (EZ : Z.max 1 (long_of_u64 L) = Z.of_nat (length (chain_elts (OPair a d)))).
  { unfold L. rewrite chain_len. rewrite long_of_len; [simpl length; lia|].
    rewrite <- chain_len. exact Hlen. }
  rewrite EZ, <- app_assoc, Hn by lia. cbn [rbind].
  rewrite Hm by lia. cbn [rbind]. rewrite chain_join. reflexivity.
Qed.

Ltac simple_good :=
  eexists; split; [reflexivity|]; exists 1%nat; intros [|f] rest Hf; [exfalso; lia|]; reflexivity.

Lemma faithful_good_both x : faithful x -> goodw x /\ chain_good x.
Proof.
  assert (atom : forall o, chain_elts o = [] -> chain_tail o = o ->
            write_chain o = write_fasl o -> goodw o -> goodw o /\ chain_good o).
  { intros o E1 E2 E3 G; split; [exact G|apply chain_good_atom; assumption]. }
  induction x as [| | | | |n|n i|b|z|c|a d IHa IHd| |l IHl| |r l IHr IHl|o IHo|e l IHe IHl|k]
    using obj_ind_strong; intros F; inversion F; subst;
    try (apply atom; [reflexivity|reflexivity|reflexivity|]; simple_good).
  - apply atom; try reflexivity. eexists; split; [reflexivity|].
    exists (S (S (length n))). intros [|f] rest Hf; [exfalso; lia|].
    cbn [app read_fasl get_byte]. change (N_of_ascii (tag FASL_SYMBOL)) with FASL_SYMBOL.
    cbv beta iota zeta delta [FASL_SYMBOL FASL_NULL FASL_TRUE FASL_FALSE FASL_EOF FASL_VOID N.eqb Pos.eqb].
    assert (C := cstr_roundtrip n f rest H0 H1 ltac:(lia)).
    destruct (read_uptr _) as [len s'| | |]; simpl in *; try discriminate.
    destruct (read_bytes _ _ _); simpl in *; congruence.
  - apply atom; try reflexivity. eexists; split; [reflexivity|].
    exists (S (S (length b))). intros [|f] rest Hf; [exfalso; lia|].
    cbn [app read_fasl get_byte]. change (N_of_ascii (tag FASL_STRING)) with FASL_STRING.
    cbv beta iota zeta delta [FASL_STRING FASL_SYMBOL FASL_NULL FASL_TRUE FASL_FALSE FASL_EOF FASL_VOID N.eqb Pos.eqb].
    assert (C := cstr_roundtrip b f rest H0 H1 ltac:(lia)).
    destruct (read_uptr _) as [len s'| | |]; simpl in *; try discriminate.
    destruct (read_bytes _ _ _); simpl in *; congruence.
  - apply atom; try reflexivity. eexists; split; [reflexivity|].
    exists 1%nat. intros [|f] rest Hf; [exfalso; lia|].
    cbn [app read_fasl get_byte]. change (N_of_ascii (tag FASL_FIXNUM)) with FASL_FIXNUM.
    cbv beta iota zeta delta [FASL_FIXNUM FASL_STRING FASL_SYMBOL FASL_NULL FASL_TRUE FASL_FALSE FASL_EOF FASL_VOID N.eqb Pos.eqb].
    rewrite uptr_roundtrip by apply u64_of_long_lt. cbn [rbind].
    rewrite long_u64_roundtrip by assumption. reflexivity.
  - apply atom; try reflexivity. eexists; split; [reflexivity|].
    exists 1%nat. intros [|f] rest Hf; [exfalso; lia|].
    cbn [app read_fasl get_byte]. change (N_of_ascii (tag FASL_CHAR)) with FASL_CHAR.
    cbn. rewrite ascii_N_embedding. reflexivity.
  - destruct (IHa H1) as [Ga _]. destruct (IHd H2) as [_ Cd].
    assert (C : chain_good (OPair a d)) by (apply chain_good_pair; assumption).
    split; [apply goodw_pair; assumption|exact C].
  - apply atom; try reflexivity.
    assert (G : Forall goodw l).
    { clear -IHl H0. induction IHl; inversion H0; subst; constructor; auto. now apply H. }
    destruct (elts_good l G) as (w & Hw & [n Hn]).
    eexists. rewrite write_vec_eq, Hw. split; [reflexivity|].
    exists (S n). intros [|f] rest Hf; [exfalso; lia|].
    cbn [app read_fasl get_byte]. change (N_of_ascii (tag FASL_VECTOR)) with FASL_VECTOR.
    cbv beta iota zeta delta [FASL_VECTOR FASL_EMPTY_VECTOR FASL_PAIR FASL_CHAR FASL_FIXNUM FASL_STRING FASL_SYMBOL FASL_NULL FASL_TRUE FASL_FALSE FASL_EOF FASL_VOID N.eqb Pos.eqb].
    rewrite <- app_assoc, uptr_roundtrip by lia. cbn [rbind].
    rewrite long_of_len by assumption. rewrite Hn by lia. reflexivity.
  - apply atom; try reflexivity.
    destruct (IHr H1) as [[wr [Hwr [nr Hnr]]] _].
    assert (G : Forall goodw l).
    { clear -IHl H2. induction IHl; inversion H2; subst; constructor; auto. now apply H. }
    destruct (elts_good l G) as (w & Hw & [n Hn]).
    eexists. rewrite write_rec_eq, Hw, Hwr. split; [reflexivity|].
    exists (S (max n nr)). intros [|f] rest Hf; [exfalso; lia|].
    cbn [app read_fasl get_byte]. change (N_of_ascii (tag FASL_RECORD)) with FASL_RECORD.
    cbv beta iota zeta delta [FASL_RECORD FASL_BASE_RTD FASL_VECTOR FASL_EMPTY_VECTOR FASL_PAIR FASL_CHAR FASL_FIXNUM FASL_STRING FASL_SYMBOL FASL_NULL FASL_TRUE FASL_FALSE FASL_EOF FASL_VOID N.eqb Pos.eqb].
    rewrite <- app_assoc, uptr_roundtrip by lia. cbn [rbind].
    rewrite <- app_assoc, Hnr by lia. cbn [rbind].
    rewrite long_of_len by lia. rewrite Hn by lia. reflexivity.
Qed.

Lemma faithful_good x : faithful x -> goodw x.
Proof. intros F. apply (faithful_good_both x F). Qed.

(** ** Which data can be written *)

Lemma oapp_none a b : oapp a b <> None <-> a <> None /\ b <> None.
Proof. destruct a, b; simpl; split; try tauto; try (intros []; congruence); split; congruence. Qed.

Lemma writable_iff x :
  (write_fasl x <> None <-> representable x) /\ (write_chain x <> None <-> representable x).
Proof.
  induction x as [| | | | |n|n i|b|z|c|a d IHa IHd| |l IHl| |r l IHr IHl|o IHo|e l IHe IHl|k]
    using obj_ind_strong;
    try (split; split; [constructor|discriminate|constructor|discriminate]).
  - destruct IHa as [IHa _]. destruct IHd as [_ IHd].
    assert (Hc : write_chain (OPair a d) <> None <-> representable (OPair a d)).
    { simpl. rewrite oapp_none, IHa, IHd. split.
      - intros []; constructor; auto.
      - inversion 1; auto. }
    split; [|exact Hc]. rewrite write_pair_eq, oapp_none, Hc. intuition congruence.
  - assert (Hc : write_elts l <> None <-> Forall representable l).
    { induction IHl as [|x l [Hx _] _ IH]; simpl.
      - split; [constructor|discriminate].
      - rewrite oapp_none, Hx, IH. split; [intros []; constructor; auto|inversion 1; auto]. }
    assert (H0 : write_fasl (OVec l) <> None <-> representable (OVec l)).
    { rewrite write_vec_eq, oapp_none, Hc. split.
      - intros [_ ?]; constructor; auto.
      - inversion 1; split; auto; discriminate. }
    split; exact H0.
  - destruct IHr as [IHr _].
    assert (Hc : write_elts l <> None <-> Forall representable l).
    { induction IHl as [|x l [Hx _] _ IH]; simpl.
      - split; [constructor|discriminate].
      - rewrite oapp_none, Hx, IH. split; [intros []; constructor; auto|inversion 1; auto]. }
    assert (H0 : write_fasl (ORec r l) <> None <-> representable (ORec r l)).
    { rewrite write_rec_eq, !oapp_none, Hc, IHr. split.
      - intros (_ & ? & ?); constructor; auto.
      - inversion 1; repeat split; auto; discriminate. }
    split; exact H0.
  - split; split; simpl; intros H; try congruence; inversion H.
  - split; split; simpl; intros H; try congruence; inversion H.
  - split; split; simpl; intros H; try congruence; inversion H.
Qed.

(** ** Sequences *)

Fixpoint write_many (xs : list obj) : option (list byte) :=
  match xs with [] => Some [] | x :: r => oapp (write_fasl x) (write_many r) end.

(** [n] successive calls of fasl-read on one port. *)
Fixpoint read_many (fuel n : nat) (s : list byte) : res (list obj) :=
  match n with
  | O => ROk [] s
  | S m => rbind (read_fasl fuel s) (fun x s =>
           rbind (read_many fuel m s) (fun xs s => ROk (x :: xs) s))
  end.

Lemma many_roundtrip xs : Forall faithful xs ->
  exists w, write_many xs = Some w /\
  exists n, forall fuel rest, (n <= fuel)%nat ->
    read_many fuel (length xs) (w ++ rest) = ROk xs rest.
Proof.
  induction 1 as [|x xs Hx _ (ws & Hws & m & Hm)].
  - exists []. split; auto. exists O. reflexivity.
  - destruct (faithful_good x Hx) as (w & Hw & n & Hn).
    exists (w ++ ws). simpl. rewrite Hw, Hws. split; auto.
    exists (max n m). intros fuel rest Hf.
    rewrite <- app_assoc, Hn by lia. cbn [rbind]. rewrite Hm by lia. reflexivity.
Qed.

(** ** Fuel only matters when it runs out *)

Lemma read_bytes_mono f : forall g n s,
  (f <= g)%nat -> read_bytes f n s <> RFuel -> read_bytes g n s = read_bytes f n s.
Proof.
  induction f as [|f IH]; intros g n s Hg Hr; simpl in Hr; [congruence|].
  destruct g as [|g]; [lia|]. apply le_S_n in Hg. revert Hr. simpl.
  destruct (n <=? 0)%Z; auto. destruct (get_byte s) as [b s'].
  intros Hr. rewrite IH; auto. intros E; rewrite E in Hr; simpl in Hr; congruence.
Qed.

Lemma rbind_mono {A B} (r1 r2 : res A) (k1 k2 : A -> list byte -> res B) :
  (r1 <> RFuel -> r2 = r1) ->
  (forall x s, k1 x s <> RFuel -> k2 x s = k1 x s) ->
  rbind r1 k1 <> RFuel -> rbind r2 k2 = rbind r1 k1.
Proof.
  intros H K N. destruct r1; simpl in *; rewrite H by congruence; simpl; auto; congruence.
Qed.

Lemma read_mono f :
  (forall g s, (f <= g)%nat -> read_fasl f s <> RFuel -> read_fasl g s = read_fasl f s) /\
  (forall g n s, (f <= g)%nat -> read_seq f n s <> RFuel -> read_seq g n s = read_seq f n s).
Proof.
  induction f as [|f [IHf IHs]].
  - split; intros; simpl in *; congruence.
  - split.
    + intros [|g] s Hg; [lia|]. apply le_S_n in Hg.
      cbn [read_fasl]. destruct (get_byte s) as [t s1].
      repeat match goal with
      | |- (if ?c then _ else _) <> _ -> _ => destruct c; [try reflexivity|]
      end; try reflexivity;
      repeat (first [ apply rbind_mono; [solve [auto using read_bytes_mono]|intros ? ?]
                    | solve [auto] ]).
    + intros [|g] n s Hg; [lia|]. apply le_S_n in Hg.
      cbn [read_seq]. destruct (n <=? 0)%Z; auto.
      apply rbind_mono; auto. intros x s1.
      apply rbind_mono; auto.
Qed.

Lemma representable_or_not x :
  (representable x /\ ~ holds_unsupported x) \/ (~ representable x /\ holds_unsupported x).
Proof.
  assert (L : forall l, Forall (fun x => (representable x /\ ~ holds_unsupported x) \/
              (~ representable x /\ holds_unsupported x)) l ->
            (Forall representable l /\ ~ Exists holds_unsupported l) \/
            (~ Forall representable l /\ Exists holds_unsupported l)).
  { induction 1 as [|y l Hy _ IH].
    - left. split; [constructor|intros HH; inversion HH].
    - destruct Hy as [[? ?]|[? ?]]; [destruct IH as [[? ?]|[? ?]]|].
      + left. split; [constructor; auto|intros HH; inversion HH; auto].
      + right. split; [intros HH; inversion HH; auto|auto].
      + right. split; [intros HH; inversion HH; auto|auto]. }
  induction x as [| | | | |n|n i|b|z|c|a d IHa IHd| |l IHl| |r l IHr IHl|o IHo|e l IHe IHl|k]
    using obj_ind_strong;
    try (left; split; [constructor|intros HH; inversion HH; fail]);
    try (right; split; [intros HH; inversion HH; fail|constructor]).
  - destruct IHa as [[? ?]|[? ?]]; [destruct IHd as [[? ?]|[? ?]]|].
    + left. split; [constructor; auto|intros HH; inversion HH; auto].
    + right. split; [intros HH; inversion HH; auto|apply hu_cdr; auto].
    + right. split; [intros HH; inversion HH; auto|apply hu_car; auto].
  - destruct (L l IHl) as [[? ?]|[? ?]].
    + left. split; [constructor; auto|intros HH; inversion HH; auto].
    + right. split; [intros HH; inversion HH; auto|apply hu_vec; auto].
  - destruct IHr as [[? ?]|[? ?]]; [destruct (L l IHl) as [[? ?]|[? ?]]|].
    + left. split; [constructor; auto|intros HH; inversion HH; auto].
    + right. split; [intros HH; inversion HH; auto|apply hu_field; auto].
    + right. split; [intros HH; inversion HH; auto|apply hu_rtd; auto].
Qed.

Lemma write_none_iff x : write_fasl x = None <-> holds_unsupported x.
Proof.
  destruct (writable_iff x) as [W _]. destruct (representable_or_not x) as [[R U]|[R U]].
  - split; [intros E; apply W in R; congruence|tauto].
  - split; [tauto|]. intros _. destruct (write_fasl x); auto.
    exfalso. apply R, W. discriminate.
Qed.

Lemma faithful_inj x y w : faithful x -> faithful y ->
  write_fasl x = Some w -> write_fasl y = Some w -> x = y.
Proof.
  intros Fx Fy Wx Wy.
  destruct (faithful_good x Fx) as (w1 & E1 & n & Hn).
  destruct (faithful_good y Fy) as (w2 & E2 & m & Hm).
  rewrite Wx in E1; rewrite Wy in E2. inversion E1; inversion E2; subst w1 w2.
  specialize (Hn (max n m) [] ltac:(lia)). specialize (Hm (max n m) [] ltac:(lia)).
  rewrite Hn in Hm. congruence.
Qed.

Lemma uptr_prefix_free u v r r' : u < 2 ^ 64 -> v < 2 ^ 64 ->
  write_uptr u ++ r = write_uptr v ++ r' -> u = v /\ r = r'.
Proof.
  intros Hu Hv E. assert (A := uptr_roundtrip u r Hu). rewrite E, uptr_roundtrip in A by exact Hv.
  inversion A; auto.
Qed.

Lemma write_uptr_loop_length r : forall u, (0 < r)%nat ->
  (1 <= length (write_uptr_loop r u) <= r)%nat.
Proof.
  induction r as [|r IH]; intros u H; [lia|].
  cbn [write_uptr_loop length]. destruct (_ =? 0); [simpl; lia|].
  destruct r as [|r']; [simpl; lia|]. specialize (IH (N.shiftr u 7) ltac:(lia)).
  revert IH. generalize (length (write_uptr_loop (S r') (N.shiftr u 7))). intros; lia.
Qed.
