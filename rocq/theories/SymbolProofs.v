(** Specification vocabulary and proofs for symbols. *)
From Coq Require Import ZArith NArith Bool Ascii String List Lia Permutation.
From Verif Require Import Base Decimal Hashtable HashtableProofs Symbol.
Import ListNotations.

(** ** Specification vocabulary *)

(** The symbols returned by the interning calls of a history. *)
Fixpoint interned (os : list sop) (xs : list nat) : list nat :=
  match os, xs with
  | Intern _ :: r, x :: ys => x :: interned r ys
  | Gensym _ :: r, _ :: ys => interned r ys
  | _, _ => []
  end.
(** The number of different symbols among them. *)
Definition distinct_interned (os : list sop) (xs : list nat) : nat :=
  length (nodup Nat.eq_dec (interned os xs)).
(** The numbers of interned symbols at which the table grows: just above three
    quarters of a table size, from the initial one on. *)
Definition growth_point (n : nat) : Prop :=
  exists b, In b (skipn 9 bucket_sizes) /\ N.of_nat n = (3 * b / 4 + 1)%N.

Definition is_gensym (o : sop) : bool := match o with Gensym _ => true | _ => false end.

(** ** Names *)
Lemma name_eqb_eq a : forall b, name_eqb a b = true <-> a = b.
Proof.
  induction a as [|x r IH]; intros [|y s]; simpl; split; intros H; try congruence; auto.
  - apply andb_true_iff in H as [H1 H2]. apply Ascii.eqb_eq in H1. apply IH in H2. congruence.
  - injection H as -> ->. rewrite Ascii.eqb_refl. apply IH; auto.
Qed.

Lemma sizes_grow : forallb (fun i => (nth i bucket_sizes 0 + 4 <=? nth (S i) bucket_sizes 0)%N)
  (seq 0 58) = true.
Proof. reflexivity. Qed.
Lemma sizes_next i a b : nth_error bucket_sizes i = Some a -> nth_error bucket_sizes (S i) = Some b ->
  (a + 4 <= b)%N.
Proof.
  intros Ha Hb. assert (Hi : S i < length bucket_sizes) by (apply nth_error_Some; congruence).
  assert (In i (seq 0 58)) by (apply in_seq; change (length bucket_sizes) with 59 in Hi; lia).
  pose proof sizes_grow as G. rewrite forallb_forall in G. specialize (G _ H).
  apply N.leb_le in G.
  apply nth_error_nth with (d := 0%N) in Ha. apply nth_error_nth with (d := 0%N) in Hb. lia.
Qed.
Lemma sizes_pos i a : nth_error bucket_sizes i = Some a -> (13 <= a)%N.
Proof.
  assert (G : forallb (fun a => 13 <=? a)%N bucket_sizes = true) by reflexivity.
  intros H. rewrite forallb_forall in G. apply N.leb_le, G. eapply nth_error_In; eauto.
Qed.
Lemma skipn_nth {A} n (l : list A) i x : nth_error l i = Some x -> n <= i -> In x (skipn n l).
Proof.
  revert n i; induction l; intros [|n] [|i]; simpl; intros H Hi; try discriminate; try lia.
  - injection H as ->; auto.
  - right. eapply nth_error_In; eauto.
  - eapply IHl; eauto. lia.
Qed.

(** ** Chains *)
Lemma slot_lt s a : 0 < a -> slot s a < a.
Proof.
  intros H; unfold slot. pose proof (N.mod_lt (hash_bytes s) (N.of_nat a)). lia.
Qed.
Lemma push_chain_length i x cs : length (push_chain i x cs) = length cs.
Proof. apply upd_length. Qed.
Lemma push_chain_perm i x cs : i < length cs ->
  Permutation (concat (push_chain i x cs)) (x :: concat cs).
Proof.
  unfold push_chain. revert i; induction cs as [|c r IH]; intros [|i] H; simpl in *; try lia.
  - reflexivity.
  - rewrite (IH i) by lia. symmetry; apply Permutation_middle.
Qed.
Lemma nth_upd_eq' {A} i (x d : A) l : i < length l -> nth i (upd i x l) d = x.
Proof. revert i; induction l; intros [|i]; simpl; intros; auto; try lia. apply IHl; lia. Qed.
Lemma nth_upd_ne' {A} i j (x d : A) l : i <> j -> nth j (upd i x l) d = nth j l d.
Proof.
  revert i j; induction l; intros [|i] [|j]; simpl; intros; auto; try lia.
Qed.
Lemma push_chain_mono i x cs j y : In y (nth j cs []) -> In y (nth j (push_chain i x cs) []).
Proof.
  intros H. unfold push_chain. destruct (Nat.eq_dec i j) as [->|Hn].
  - destruct (Nat.ltb_spec j (length cs)) as [Hl|Hl].
    + rewrite nth_upd_eq' by auto; right; auto.
    + rewrite nth_overflow in H by auto; destruct H.
  - rewrite nth_upd_ne'; auto.
Qed.
Lemma push_chain_at i x cs : i < length cs -> In x (nth i (push_chain i x cs) []).
Proof. intros. unfold push_chain. rewrite nth_upd_eq' by auto; left; auto. Qed.

Lemma move_chain_length nm a b : forall cs, length (move_chain nm a cs b) = length cs.
Proof.
  unfold move_chain. induction b; intros; simpl; auto. rewrite IHb, push_chain_length; auto.
Qed.
Lemma move_chain_perm nm a b : 0 < a -> forall cs, length cs = a ->
  Permutation (concat (move_chain nm a cs b)) (b ++ concat cs).
Proof.
  intros Ha. unfold move_chain. induction b as [|x b IH]; intros cs Hc; simpl; [reflexivity|].
  rewrite IH by (rewrite push_chain_length; auto).
  rewrite push_chain_perm by (rewrite Hc; apply slot_lt; auto).
  rewrite <- Permutation_middle. reflexivity.
Qed.
Lemma move_chain_mono nm a b j y : forall cs, In y (nth j cs []) ->
  In y (nth j (move_chain nm a cs b) []).
Proof.
  unfold move_chain. induction b; intros; simpl; auto. apply IHb, push_chain_mono; auto.
Qed.
Lemma move_chain_at nm a b y : 0 < a -> forall cs, length cs = a -> In y b ->
  In y (nth (slot (nm y) a) (move_chain nm a cs b) []).
Proof.
  intros Ha. unfold move_chain. induction b as [|x b IH]; intros cs Hc Hin; [destruct Hin|].
  simpl. destruct Hin as [->|Hin].
  - apply (move_chain_mono nm a b). apply push_chain_at. rewrite Hc; apply slot_lt; auto.
  - apply IH; auto. rewrite push_chain_length; auto.
Qed.

Lemma move_all_gen nm a : 0 < a -> forall old cs, length cs = a ->
  length (fold_left (move_chain nm a) old cs) = a /\
  Permutation (concat (fold_left (move_chain nm a) old cs)) (concat old ++ concat cs) /\
  (forall j y, In y (nth j cs []) -> In y (nth j (fold_left (move_chain nm a) old cs) [])) /\
  (forall y, In y (concat old) -> In y (nth (slot (nm y) a) (fold_left (move_chain nm a) old cs) [])).
Proof.
  intros Ha. induction old as [|b old IH]; intros cs Hc; simpl.
  - split; [auto|]. split; [reflexivity|]. split; [auto|]. intros y [].
  - destruct (IH (move_chain nm a cs b)) as (H1 & H2 & H3 & H4).
    { rewrite move_chain_length; auto. }
    split; [auto|]. split; [|split].
    + rewrite H2, move_chain_perm by auto. rewrite !app_assoc.
      apply Permutation_app_tail, Permutation_app_comm.
    + intros j y Hy. apply H3, move_chain_mono; auto.
    + intros y Hy. apply in_app_iff in Hy as [Hy|Hy]; [|apply H4; auto].
      apply H3, move_chain_at; auto.
Qed.
Lemma move_all_ok nm a old : 0 < a ->
  length (move_all nm a old) = a /\
  Permutation (concat (move_all nm a old)) (concat old) /\
  (forall y, In y (concat old) -> In y (nth (slot (nm y) a) (move_all nm a old) [])).
Proof.
  intros Ha. destruct (move_all_gen nm a Ha old (repeat [] a)) as (H1 & H2 & _ & H4).
  { apply repeat_length. }
  split; [exact H1|]. split; [|exact H4].
  unfold move_all. rewrite H2, concat_repeat_nil, app_nil_r. reflexivity.
Qed.

Lemma in_nth_concat {A} (ls : list (list A)) i x : In x (nth i ls []) -> In x (concat ls).
Proof.
  intros H. apply in_concat. exists (nth i ls []). split; auto.
  destruct (Nat.ltb_spec i (length ls)) as [Hl|Hl]; [apply nth_In; auto|].
  rewrite nth_overflow in H by auto; destruct H.
Qed.

(** ** The table invariant *)
Record tab_inv (st : symtab) : Prop := {
  ti_alloc : nth_error bucket_sizes (alloc_ptr st) = Some (N.of_nat (length (chains st)));
  ti_ptr : 9 <= alloc_ptr st;
  ti_nodup : NoDup (concat (chains st));
  ti_entries : entries st = N.of_nat (length (concat (chains st)));
  ti_load : (4 * entries st <= 3 * N.of_nat (length (chains st)) + 4)%N;
  ti_range : forall x, In x (concat (chains st)) -> x < length (names st) }.

Lemma tab_inv_pos st : tab_inv st -> 0 < length (chains st).
Proof. intros I. apply ti_alloc, sizes_pos in I. lia. Qed.

Lemma overloaded_point st : tab_inv st -> overloaded st = true ->
  growth_point (length (concat (chains st))).
Proof.
  intros I H. unfold overloaded in H. apply N.ltb_lt in H.
  exists (N.of_nat (length (chains st))). split.
  - eapply skipn_nth; [apply (ti_alloc _ I)|apply (ti_ptr _ I)].
  - pose proof (ti_load _ I). rewrite <- (ti_entries _ I).
    set (a := N.of_nat (length (chains st))) in *.
    clearbody a. pose proof (N.div_mod (3 * a) 4 ltac:(lia)) as E1. pose proof (N.mod_lt (3 * a) 4 ltac:(lia)) as E2.
    remember (3 * a / 4)%N as q. remember ((3 * a) mod 4)%N as r. clear Heqq Heqr. lia.
Qed.

(** The tracked symbol [id] is the only table entry named [n], in its bucket. *)
Record tracked (st : symtab) (n : name) (id : nat) : Prop := {
  tr_name : name_of st id = n;
  tr_at : In id (nth (slot n (length (chains st))) (chains st) []);
  tr_only : forall x, In x (concat (chains st)) -> name_of st x = n -> x = id }.


Lemma name_of_app st x s ap ch en co : x < length (names st) ->
  name_of (mksymtab (names st ++ [s]) ap ch en co) x = name_of st x.
Proof. intros. unfold name_of; simpl. rewrite app_nth1; auto. Qed.

(** What one interning call does. *)
Lemma intern_ok st b st' x : tab_inv st -> intern st b = Some (st', x) ->
  (st' = st /\ In x (concat (chains st)) /\ name_of st x = cstr b) \/
  (find (fun x => name_eqb (name_of st x) (cstr b)) (nth (slot (cstr b) (length (chains st))) (chains st) []) = None /\
   x = length (names st) /\ names st' = names st ++ [cstr b] /\ counter st' = counter st /\
   tab_inv st' /\ Permutation (concat (chains st')) (x :: concat (chains st)) /\
   (overloaded st = false -> length (chains st') = length (chains st) /\
      In x (nth (slot (cstr b) (length (chains st'))) (chains st') [])) /\
   (forall y, In y (concat (chains st)) ->
      In y (nth (slot (name_of st y) (length (chains st))) (chains st) []) ->
      In y (nth (slot (name_of st y) (length (chains st'))) (chains st') []))).
Proof.
  intros I H. unfold intern in H. pose proof (tab_inv_pos _ I) as Hpos.
  destruct (find _ _) as [y|] eqn:F.
  - injection H as <- <-. left. apply find_some_in in F as [F1 F2].
    split; auto. split; [eapply in_nth_concat; eauto|]. apply name_eqb_eq; auto.
  - right. change (overloaded (new_symbol st (cstr b))) with (overloaded st) in H.
    set (idx := slot (cstr b) (length (chains st))) in *.
    assert (Hidx : idx < length (chains st)) by (apply slot_lt; auto).
    destruct (overloaded st) eqn:O.
    + unfold resize in H. cbn [alloc_ptr new_symbol] in H.
      destruct (nth_error bucket_sizes (S (alloc_ptr st))) as [a|] eqn:Ea; [|discriminate].
      injection H as <- <-. cbn [names alloc_ptr chains entries counter new_symbol].
      pose proof (sizes_next _ _ _ (ti_alloc _ I) Ea) as Hgrow.
      destruct (move_all_ok (name_of (new_symbol st (cstr b))) (N.to_nat a) (chains st)) as (M1 & M2 & M3); [lia|].
      assert (P : Permutation (concat (push_chain idx (length (names st))
                   (move_all (name_of (new_symbol st (cstr b))) (N.to_nat a) (chains st))))
                   (length (names st) :: concat (chains st))).
      { rewrite push_chain_perm by lia. constructor. exact M2. }
      split; [reflexivity|]. split; [reflexivity|]. split; [reflexivity|]. split; [reflexivity|].
      split; [|split; [exact P|split; [intros Hc; discriminate Hc|]]].
      * constructor; cbn [names alloc_ptr chains entries counter].
        -- rewrite push_chain_length, M1, N2Nat.id. exact Ea.
        -- pose proof (ti_ptr _ I); lia.
        -- rewrite P. constructor; [|apply (ti_nodup _ I)].
           intros Hin. apply (ti_range _ I) in Hin. lia.
        -- rewrite P. simpl. rewrite (ti_entries _ I). lia.
        -- rewrite push_chain_length, M1. pose proof (ti_load _ I). lia.
        -- intros y Hy. rewrite P in Hy. rewrite app_length. simpl.
           destruct Hy as [<-|Hy]; [lia|]. apply (ti_range _ I) in Hy; lia.
      * intros y Hy _. rewrite push_chain_length, M1. apply push_chain_mono.
        specialize (M3 y Hy). unfold new_symbol in M3. rewrite name_of_app in M3; auto.
        apply (ti_range _ I); auto.
    + injection H as <- <-. cbn [names alloc_ptr chains entries counter new_symbol].
      pose proof (push_chain_perm idx (length (names st)) (chains st) Hidx) as P.
      split; [reflexivity|]. split; [reflexivity|]. split; [reflexivity|]. split; [reflexivity|].
      split; [|split; [exact P|split]].
      * constructor; cbn [names alloc_ptr chains entries counter].
        -- rewrite push_chain_length. apply (ti_alloc _ I).
        -- apply (ti_ptr _ I).
        -- rewrite P. constructor; [|apply (ti_nodup _ I)].
           intros Hin. apply (ti_range _ I) in Hin. lia.
        -- rewrite P. simpl. rewrite (ti_entries _ I). lia.
        -- rewrite push_chain_length. unfold overloaded in O. apply N.ltb_ge in O. lia.
        -- intros y Hy. rewrite P in Hy. rewrite app_length. simpl.
           destruct Hy as [<-|Hy]; [lia|]. apply (ti_range _ I) in Hy; lia.
      * intros _. rewrite push_chain_length. split; auto. apply push_chain_at; auto.
      * intros y Hy Hat. rewrite push_chain_length. apply push_chain_mono; auto.
Qed.

Lemma gensym_ok st p st' x : tab_inv st -> gensym st p = Some (st', x) ->
  tab_inv st' /\ x = length (names st) /\ chains st' = chains st /\
  names st' = names st ++ [cstr p ++ print_long (counter st)] /\ counter st' = (counter st + 1)%Z.
Proof.
  intros I H. unfold gensym in H. destruct (is_longb _); [|discriminate].
  injection H as <- <-. split; [|auto].
  destruct I. constructor; cbn [names alloc_ptr chains entries counter]; auto.
  intros y Hy. rewrite app_length. simpl. specialize (ti_range0 y Hy). lia.
Qed.

Lemma intern_tracked_hit st b n id st' x : tab_inv st -> tracked st n id -> cstr b = n ->
  intern st b = Some (st', x) -> st' = st /\ x = id.
Proof.
  intros I [Hn Ha Ho] Hb H. destruct (intern_ok _ _ _ _ I H) as [(-> & Hin & Hnm)|(F & _)].
  - split; auto. apply Ho; congruence.
  - exfalso. rewrite Hb in F. eapply find_none in F; [|exact Ha]. cbn beta in F.
    rewrite Hn in F. assert (name_eqb n n = true) by (apply name_eqb_eq; auto). congruence.
Qed.

Lemma sstep_tracked st o st' x n id : tab_inv st -> tracked st n id ->
  sstep st o = Some (st', x) -> tracked st' n id.
Proof.
  intros I T H. destruct o as [b|p].
  - destruct (list_eq_dec ascii_dec (cstr b) n) as [E|NE].
    + destruct (intern_tracked_hit _ _ _ _ _ _ I T E H) as [-> _]. exact T.
    + destruct (intern_ok _ _ _ _ I H) as [(-> & _)|(F & Hx & Hnm & _ & I' & P & _ & Hmv)]; auto.
      destruct T as [Hn Ha Ho].
      assert (Hid : In id (concat (chains st))) by (eapply in_nth_concat; eauto).
      assert (Hnames : forall y, y < length (names st) -> name_of st' y = name_of st y).
      { intros y Hy. unfold name_of. rewrite Hnm, app_nth1; auto. }
      constructor.
      * rewrite Hnames; auto. apply (ti_range _ I); auto.
      * rewrite <- Hn. apply Hmv; auto. rewrite Hn; auto.
      * intros y Hy Hyn. rewrite P in Hy. destruct Hy as [<-|Hy].
        -- exfalso. apply NE. rewrite <- Hyn, Hx. unfold name_of. rewrite Hnm, app_nth2, Nat.sub_diag by lia.
           reflexivity.
        -- apply Ho; auto. rewrite <- Hyn. symmetry. apply Hnames. apply (ti_range _ I); auto.
  - destruct (gensym_ok _ _ _ _ I H) as (I' & Hx & Hc & Hnm & _). destruct T as [Hn Ha Ho].
    assert (Hnames : forall y, y < length (names st) -> name_of st' y = name_of st y).
    { intros y Hy. unfold name_of. rewrite Hnm, app_nth1; auto. }
    assert (Hid : In id (concat (chains st))) by (eapply in_nth_concat; eauto).
    constructor; rewrite ?Hc.
    + rewrite Hnames; auto. apply (ti_range _ I); auto.
    + auto.
    + intros y Hy Hyn. apply Ho; auto. rewrite <- Hyn. symmetry; apply Hnames, (ti_range _ I); auto.
Qed.

Lemma sstep_tab_inv st o st' x : tab_inv st -> sstep st o = Some (st', x) -> tab_inv st'.
Proof.
  intros I H. destruct o.
  - destruct (intern_ok _ _ _ _ I H) as [(-> & _)|(_ & _ & _ & _ & I' & _)]; auto.
  - eapply gensym_ok; eauto.
Qed.

(** ** The history invariant *)
Record hist (st : symtab) (os : list sop) (xs : list nat) : Prop := {
  h_tab : tab_inv st;
  h_len : length xs = length os;
  h_entries : forall x, In x (concat (chains st)) <-> In x (interned os xs);
  h_named : forall x, In x (concat (chains st)) -> exists b, In (Intern b) os /\ name_of st x = cstr b;
  h_intern : forall i b x, nth_error os i = Some (Intern b) -> nth_error xs i = Some x ->
     x < length (names st) /\ name_of st x = cstr b;
  h_gensym : forall i p x, nth_error os i = Some (Gensym p) -> nth_error xs i = Some x ->
     x < length (names st) /\ ~ In x (concat (chains st)) /\
     name_of st x = cstr p ++ print_long (Z.of_nat (length (filter is_gensym (firstn i os))));
  h_counter : counter st = Z.of_nat (length (filter is_gensym os));
  h_fresh : forall i j p x y, nth_error os i = Some (Gensym p) -> i <> j ->
     nth_error xs i = Some x -> nth_error xs j = Some y -> x <> y }.

Lemma interned_app os xs : length xs = length os -> forall o x,
  interned (os ++ [o]) (xs ++ [x]) = interned os xs ++ match o with Intern _ => [x] | Gensym _ => [] end.
Proof.
  revert xs; induction os as [|o' os IH]; intros [|x' xs] Hl o x; simpl in *; try discriminate.
  - destruct o; auto.
  - destruct o'; simpl; rewrite IH; auto.
Qed.

Lemma interned_in os : forall xs i b x, nth_error os i = Some (Intern b) -> nth_error xs i = Some x ->
  In x (interned os xs).
Proof.
  induction os as [|o os IH]; intros [|y xs] [|i] b x Ho Hx; simpl in *; try discriminate.
  - injection Ho as ->; injection Hx as ->; left; auto.
  - destruct o; [right|]; eapply IH; eauto.
Qed.

Lemma hist_init : hist sym_init [] [].
Proof.
  constructor.
  - constructor; cbn [names alloc_ptr chains entries sym_init].
    + rewrite repeat_length, N2Nat.id. reflexivity.
    + lia.
    + rewrite concat_repeat_nil. constructor.
    + rewrite concat_repeat_nil. reflexivity.
    + lia.
    + rewrite concat_repeat_nil. intros x [].
  - reflexivity.
  - cbn [chains sym_init]. rewrite concat_repeat_nil. reflexivity.
  - cbn [chains sym_init]. rewrite concat_repeat_nil. intros x [].
  - intros [|i]; discriminate.
  - intros [|i]; discriminate.
  - reflexivity.
  - intros [|i]; discriminate.
Qed.

Lemma nth_snoc_inv {A} (l : list A) x i y : nth_error (l ++ [x]) i = Some y ->
  (i < length l /\ nth_error l i = Some y) \/ (i = length l /\ y = x).
Proof.
  intros H. destruct (Nat.ltb_spec i (length l)) as [Hl|Hl].
  - left; split; auto. rewrite nth_error_app1 in H; auto.
  - right. rewrite nth_error_app2 in H by auto.
    destruct (i - length l) as [|k] eqn:E; [|destruct k; discriminate].
    injection H as ->. split; auto. lia.
Qed.

Lemma hist_step st os xs o st' x : hist st os xs -> sstep st o = Some (st', x) ->
  hist st' (os ++ [o]) (xs ++ [x]).
Proof.
  intros [HT HL HE HN HI HG HC HF] H.
  assert (HT' := sstep_tab_inv _ _ _ _ HT H).
  assert (Hnth : forall i, i < length os -> nth_error xs i <> None).
  { intros i Hi. apply nth_error_Some. lia. }
  assert (Hold : forall i y, nth_error xs i = Some y -> y < length (names st)).
  { intros i y Hy. assert (Hi : i < length os).
    { rewrite <- HL. apply nth_error_Some. congruence. }
    destruct (nth_error os i) as [[b|p]|] eqn:E.
    - eapply HI; eauto. - eapply HG; eauto. - apply nth_error_None in E; lia. }
  destruct o as [b|p].
  - destruct (intern_ok _ _ _ _ HT H) as [(-> & Hin & Hnm)|(F & Hx & Hnames & Hcn & _ & P & _ & _)].
    + (* already present *)
      constructor; auto.
      * rewrite !app_length; simpl; lia.
      * intros y. rewrite interned_app by auto. rewrite in_app_iff, <- HE. simpl.
        split; [auto|]. intros [Hy|[<-|[]]]; auto.
      * intros y Hy. destruct (HN y Hy) as (b' & Hb & Hy'). exists b'. split; auto. apply in_app_iff; auto.
      * intros i b' y Ho Hy. apply nth_snoc_inv in Ho as [[Hi Ho]|[Hi Ho]].
        -- rewrite nth_error_app1 in Hy by lia. eapply HI; eauto.
        -- rewrite nth_error_app2 in Hy by lia. replace (i - length xs) with 0 in Hy by lia.
           injection Ho as ->. injection Hy as <-. split; auto. apply (ti_range _ HT); auto.
      * intros i p y Ho Hy. apply nth_snoc_inv in Ho as [[Hi Ho]|[Hi Ho]]; [|discriminate].
        rewrite nth_error_app1 in Hy by lia. rewrite firstn_app.
        replace (i - length os) with 0 by lia. simpl. rewrite app_nil_r. eapply HG; eauto.
      * rewrite filter_app. simpl. rewrite app_nil_r. auto.
      * intros i j p y z Ho Hij Hy Hz. apply nth_snoc_inv in Ho as [[Hi Ho]|[Hi Ho]]; [|discriminate].
        rewrite nth_error_app1 in Hy by lia. apply nth_snoc_inv in Hz as [[Hj Hz]|[Hj Hz]].
        -- eapply HF; eauto.
        -- subst z. intros ->. destruct (HG _ _ _ Ho Hy) as (_ & Hni & _). auto.
    + (* new symbol *)
      assert (Hnm : forall y, y < length (names st) -> name_of st' y = name_of st y).
      { intros y Hy. unfold name_of. rewrite Hnames, app_nth1; auto. }
      assert (Hxn : name_of st' x = cstr b).
      { unfold name_of. rewrite Hnames, Hx, app_nth2, Nat.sub_diag by lia. reflexivity. }
      assert (Hlen : length (names st') = S (length (names st))).
      { rewrite Hnames, app_length; simpl; lia. }
      constructor; auto.
      * rewrite !app_length; simpl; lia.
      * intros y. rewrite interned_app by auto. rewrite in_app_iff, <- HE. simpl.
        rewrite P. simpl. tauto.
      * intros y Hy. rewrite P in Hy. destruct Hy as [<-|Hy].
        -- exists b. split; auto. apply in_app_iff; right; left; auto.
        -- destruct (HN y Hy) as (b' & Hb & Hy'). exists b'. split; [apply in_app_iff; auto|].
           rewrite Hnm; auto. apply (ti_range _ HT); auto.
      * intros i b' y Ho Hy. apply nth_snoc_inv in Ho as [[Hi Ho]|[Hi Ho]].
        -- rewrite nth_error_app1 in Hy by lia. destruct (HI _ _ _ Ho Hy). rewrite Hlen, Hnm by auto. split; [lia|auto].
        -- rewrite nth_error_app2 in Hy by lia. replace (i - length xs) with 0 in Hy by lia.
           injection Ho as ->. injection Hy as <-. split; auto. lia.
      * intros i p y Ho Hy. apply nth_snoc_inv in Ho as [[Hi Ho]|[Hi Ho]]; [|discriminate].
        rewrite nth_error_app1 in Hy by lia. rewrite firstn_app.
        replace (i - length os) with 0 by lia. simpl. rewrite app_nil_r.
        destruct (HG _ _ _ Ho Hy) as (G1 & G2 & G3). rewrite Hlen, Hnm by auto.
        split; [lia|]. split; auto. rewrite P. intros [Hyx|Hin]; [lia|auto].
      * rewrite filter_app. simpl. rewrite app_nil_r. congruence.
      * intros i j p y z Ho Hij Hy Hz. apply nth_snoc_inv in Ho as [[Hi Ho]|[Hi Ho]]; [|discriminate].
        rewrite nth_error_app1 in Hy by lia. apply nth_snoc_inv in Hz as [[Hj Hz]|[Hj Hz]].
        -- eapply HF; eauto.
        -- subst z. apply Hold in Hy. lia.
  - destruct (gensym_ok _ _ _ _ HT H) as (_ & Hx & Hch & Hnames & Hcn).
    assert (Hnm : forall y, y < length (names st) -> name_of st' y = name_of st y).
    { intros y Hy. unfold name_of. rewrite Hnames, app_nth1; auto. }
    assert (Hxn : name_of st' x = cstr p ++ print_long (counter st)).
    { unfold name_of. rewrite Hnames, Hx, app_nth2, Nat.sub_diag by lia. reflexivity. }
    assert (Hlen : length (names st') = S (length (names st))).
    { rewrite Hnames, app_length; simpl; lia. }
    constructor; auto.
    + rewrite !app_length; simpl; lia.
    + intros y. rewrite interned_app, app_nil_r, Hch by auto. auto.
    + intros y Hy. rewrite Hch in Hy. destruct (HN y Hy) as (b' & Hb & Hy'). exists b'.
      split; [apply in_app_iff; auto|]. rewrite Hnm; auto. apply (ti_range _ HT); auto.
    + intros i b' y Ho Hy. apply nth_snoc_inv in Ho as [[Hi Ho]|[Hi Ho]]; [|discriminate].
      rewrite nth_error_app1 in Hy by lia. destruct (HI _ _ _ Ho Hy). rewrite Hlen, Hnm by auto. split; [lia|auto].
    + intros i p' y Ho Hy. rewrite Hch. apply nth_snoc_inv in Ho as [[Hi Ho]|[Hi Ho]].
      * rewrite nth_error_app1 in Hy by lia. rewrite firstn_app.
        replace (i - length os) with 0 by lia. simpl. rewrite app_nil_r.
        destruct (HG _ _ _ Ho Hy) as (G1 & G2 & G3). rewrite Hlen, Hnm by auto.
        split; [lia|]. split; auto.
      * rewrite nth_error_app2 in Hy by lia. replace (i - length xs) with 0 in Hy by lia.
        injection Ho as ->. injection Hy as <-.
        split; [lia|]. split.
        -- intros Hin. apply (ti_range _ HT) in Hin. lia.
        -- rewrite Hxn, HC, firstn_app, Hi, Nat.sub_diag, firstn_all. simpl. rewrite app_nil_r. auto.
    + rewrite filter_app, app_length. simpl. rewrite Hcn, HC. lia.
    + intros i j p' y z Ho Hij Hy Hz. apply nth_snoc_inv in Ho as [[Hi Ho]|[Hi Ho]].
      * rewrite nth_error_app1 in Hy by lia. apply nth_snoc_inv in Hz as [[Hj Hz]|[Hj Hz]].
        -- eapply HF; eauto.
        -- subst z. apply Hold in Hy. lia.
      * rewrite nth_error_app2 in Hy by lia. replace (i - length xs) with 0 in Hy by lia.
        injection Hy as <-. apply nth_snoc_inv in Hz as [[Hj Hz]|[Hj Hz]].
        -- apply Hold in Hz. lia.
        -- lia.
Qed.

Lemma hist_run : forall os st pre prex st' xs, hist st pre prex -> srun st os = Some (st', xs) ->
  hist st' (pre ++ os) (prex ++ xs).
Proof.
  induction os as [|o r IH]; intros st pre prex st' xs HH H; simpl in H.
  - injection H as <- <-. rewrite !app_nil_r; auto.
  - destruct (sstep st o) as [[st1 x]|] eqn:E; [|discriminate].
    destruct (srun st1 r) as [[st2 ys]|] eqn:E2; [|discriminate]. injection H as <- <-.
    specialize (IH _ (pre ++ [o]) (prex ++ [x]) _ _ (hist_step _ _ _ _ _ _ HH E) E2).
    rewrite <- !app_assoc in IH. exact IH.
Qed.
Lemma hist_of_run os st xs : srun sym_init os = Some (st, xs) -> hist st os xs.
Proof. intros H. apply (hist_run os sym_init [] []); auto. apply hist_init. Qed.

Lemma srun_app os1 : forall os2 st st' xs, srun st (os1 ++ os2) = Some (st', xs) ->
  exists st1 xs1 xs2, srun st os1 = Some (st1, xs1) /\ srun st1 os2 = Some (st', xs2) /\ xs = xs1 ++ xs2.
Proof.
  induction os1 as [|o r IH]; intros os2 st st' xs H; simpl in H.
  - exists st, [], xs. auto.
  - destruct (sstep st o) as [[st1 x]|] eqn:E; [|discriminate].
    destruct (srun st1 (r ++ os2)) as [[st2 ys]|] eqn:E2; [|discriminate]. injection H as <- <-.
    destruct (IH _ _ _ _ E2) as (s1 & x1 & x2 & H1 & H2 & ->).
    exists s1, (x :: x1), x2. simpl. rewrite E, H1. auto.
Qed.
Lemma srun_app_intro os1 : forall os2 st st1 st' xs1 xs2, srun st os1 = Some (st1, xs1) ->
  srun st1 os2 = Some (st', xs2) -> srun st (os1 ++ os2) = Some (st', xs1 ++ xs2).
Proof.
  induction os1 as [|o r IH]; intros os2 st st1 st' xs1 xs2 H1 H2; simpl in *.
  - injection H1 as <- <-. auto.
  - destruct (sstep st o) as [[s x]|]; [|discriminate].
    destruct (srun s r) as [[s2 ys]|] eqn:E; [|discriminate]. injection H1 as <- <-.
    simpl. rewrite (IH _ _ _ _ _ _ E H2). auto.
Qed.
Lemma srun_length os : forall st st' xs, srun st os = Some (st', xs) -> length xs = length os.
Proof.
  induction os as [|o r IH]; intros st st' xs H; simpl in H.
  - injection H as <- <-; auto.
  - destruct (sstep st o) as [[s x]|]; [|discriminate].
    destruct (srun s r) as [[s2 ys]|] eqn:E; [|discriminate]. injection H as <- <-. simpl. erewrite IH; eauto.
Qed.

Lemma interned_names os1 st1 xs1 n : srun sym_init os1 = Some (st1, xs1) ->
  (forall b, In (Intern b) os1 -> cstr b <> n) ->
  forall x, In x (concat (chains st1)) -> name_of st1 x <> n.
Proof.
  intros H Hn x Hx. destruct (h_named _ _ _ (hist_of_run _ _ _ H) x Hx) as (b & Hb & ->). auto.
Qed.

Lemma entries_count os xs st : hist st os xs -> length (concat (chains st)) = distinct_interned os xs.
Proof.
  intros HH. unfold distinct_interned. apply Permutation_length, NoDup_Permutation.
  - apply (ti_nodup _ (h_tab _ _ _ HH)).
  - apply NoDup_nodup.
  - intros x. rewrite nodup_In. apply (h_entries _ _ _ HH).
Qed.

Lemma tracked_run : forall os st st' xs n id, tab_inv st -> tracked st n id ->
  srun st os = Some (st', xs) ->
  forall j b, nth_error os j = Some (Intern b) -> cstr b = n -> nth_error xs j = Some id.
Proof.
  induction os as [|o r IH]; intros st st' xs n id I T H j b Hj Hb; [destruct j; discriminate|].
  simpl in H. destruct (sstep st o) as [[s x]|] eqn:E; [|discriminate].
  destruct (srun s r) as [[s2 ys]|] eqn:E2; [|discriminate]. injection H as <- <-.
  destruct j as [|j]; simpl in *.
  - injection Hj as ->. f_equal. eapply intern_tracked_hit; eauto.
  - eapply IH; [eapply sstep_tab_inv; eauto|eapply sstep_tracked; eauto| | |]; eauto.
Qed.

Theorem same_name os1 a os2 st xs : srun sym_init (os1 ++ Intern a :: os2) = Some (st, xs) ->
  (forall b, In (Intern b) os1 -> cstr b <> cstr a) ->
  ~ growth_point (distinct_interned os1 (firstn (length os1) xs)) ->
  forall j b, nth_error os2 j = Some (Intern b) -> cstr b = cstr a ->
    nth_error xs (length os1 + S j) = nth_error xs (length os1).
Proof.
  intros H Hfirst Hg j b Hj Hb.
  destruct (srun_app _ _ _ _ _ H) as (st1 & xs1 & xs2 & H1 & H2 & ->).
  pose proof (srun_length _ _ _ _ H1) as L1.
  rewrite <- L1, firstn_app, Nat.sub_diag, firstn_all in Hg. simpl in Hg. rewrite app_nil_r in Hg.
  pose proof (hist_of_run _ _ _ H1) as HH.
  rewrite <- L1, (nth_error_app2 xs1 xs2) by lia. rewrite (nth_error_app2 xs1 xs2 (n := length xs1)) by lia.
  rewrite Nat.sub_diag. replace (length xs1 + S j - length xs1) with (S j) by lia.
  simpl in H2. destruct (intern st1 a) as [[s x]|] eqn:E; [|discriminate].
  destruct (srun s os2) as [[s2 ys]|] eqn:E2; [|discriminate]. injection H2 as <- <-. simpl.
  pose proof (h_tab _ _ _ HH) as I. pose proof (interned_names _ _ _ _ H1 Hfirst) as Hno.
  destruct (intern_ok _ _ _ _ I E) as [(-> & Hin & Hnm)|(F & Hx & Hnames & _ & I' & P & Hov & _)].
  - exfalso. eapply Hno; eauto.
  - assert (O : overloaded st1 = false).
    { destruct (overloaded st1) eqn:O; auto. exfalso. apply Hg.
      rewrite <- (entries_count _ _ _ HH). apply overloaded_point; auto. }
    destruct (Hov O) as (Hl & Hat).
    eapply tracked_run; [exact I'| |exact E2|exact Hj|exact Hb].
    constructor.
    + unfold name_of. rewrite Hnames, Hx, app_nth2, Nat.sub_diag by lia. reflexivity.
    + exact Hat.
    + intros y Hy Hyn. rewrite P in Hy. destruct Hy as [<-|Hy]; auto.
      exfalso. eapply Hno; [exact Hy|]. rewrite <- Hyn. unfold name_of.
      rewrite Hnames, app_nth1; auto. apply (ti_range _ I); auto.
Qed.

Theorem different_names os st xs i j a b x y : srun sym_init os = Some (st, xs) ->
  nth_error os i = Some (Intern a) -> nth_error os j = Some (Intern b) ->
  nth_error xs i = Some x -> nth_error xs j = Some y -> cstr a <> cstr b -> x <> y.
Proof.
  intros H Ha Hb Hx Hy Hne ->. apply hist_of_run in H.
  destruct (h_intern _ _ _ H _ _ _ Ha Hx), (h_intern _ _ _ H _ _ _ Hb Hy). congruence.
Qed.

(** Every short enough history runs. *)
Lemma srun_total : forall os st pre prex, hist st pre prex ->
  (N.of_nat (length pre + length os) < 2 ^ 60)%N -> exists st' xs, srun st os = Some (st', xs).
Proof.
  induction os as [|o r IH]; intros st pre prex HH Hb; simpl; [eauto|].
  assert (exists st1 x, sstep st o = Some (st1, x)) as (st1 & x & E).
  { destruct o as [b|p]; simpl.
    - unfold intern. destruct (find _ _); [eauto|]. change (overloaded (new_symbol st (cstr b))) with (overloaded st).
      destruct (overloaded st) eqn:O; [|eauto].
      unfold resize. cbn [alloc_ptr new_symbol].
      destruct (nth_error bucket_sizes (S (alloc_ptr st))) eqn:E; [eauto|].
      exfalso. pose proof (h_tab _ _ _ HH) as I.
      apply nth_error_None in E. change (length bucket_sizes) with 59 in E.
      pose proof (ti_alloc _ I) as A. assert (alloc_ptr st < 59).
      { apply (nth_error_Some bucket_sizes). congruence. }
      replace (alloc_ptr st) with 58 in A by lia. change (nth_error bucket_sizes 58) with (Some 4611686018427388039%N) in A.
      injection A as A. unfold overloaded in O. apply N.ltb_lt in O. rewrite <- A in O.
      assert (Hle : length (concat (chains st)) <= length pre).
      { rewrite (entries_count _ _ _ HH). unfold distinct_interned.
        etransitivity; [|rewrite <- (h_len _ _ _ HH); reflexivity].
        assert (G : forall os xs, length (interned os xs) <= length xs).
        { induction os as [|[]]; destruct xs; simpl; try lia; specialize (IHos xs); lia. }
        etransitivity; [|apply G]. apply NoDup_incl_length; [apply NoDup_nodup|].
        intros z Hz. apply nodup_In in Hz; exact Hz. }
      rewrite (ti_entries _ I) in O. lia.
    - unfold gensym. rewrite (h_counter _ _ _ HH).
      assert (length (filter is_gensym pre) <= length pre).
      { clear. induction pre; simpl; auto. destruct is_gensym; simpl; lia. }
      assert (is_longb (Z.of_nat (length (filter is_gensym pre)) + 1) = true) as ->; [|eauto].
      apply is_longb_spec. unfold is_long. simpl in Hb. lia. }
  rewrite E. destruct (IH st1 (pre ++ [o]) (prex ++ [x]) (hist_step _ _ _ _ _ _ HH E)) as (st' & xs & H).
  - rewrite app_length. simpl in *. lia.
  - rewrite H; eauto.
Qed.
Theorem run_total os : (N.of_nat (length os) < 2 ^ 60)%N ->
  exists st xs, srun sym_init os = Some (st, xs).
Proof. intros H. eapply (srun_total os sym_init [] []); auto. apply hist_init. Qed.

Theorem gensym_fresh os st xs i j p x y : srun sym_init os = Some (st, xs) ->
  nth_error os i = Some (Gensym p) -> i <> j ->
  nth_error xs i = Some x -> nth_error xs j = Some y -> x <> y.
Proof. intros H. apply hist_of_run in H. apply (h_fresh _ _ _ H). Qed.

Theorem gensym_names os st xs i j p q x y : srun sym_init os = Some (st, xs) ->
  nth_error os i = Some (Gensym p) -> nth_error os j = Some (Gensym q) -> i <> j -> cstr p = cstr q ->
  nth_error xs i = Some x -> nth_error xs j = Some y -> name_of st x <> name_of st y.
Proof.
  intros H Hi Hj Hij Hpq Hx Hy E. apply hist_of_run in H.
  destruct (h_gensym _ _ _ H _ _ _ Hi Hx) as (_ & _ & E1).
  destruct (h_gensym _ _ _ H _ _ _ Hj Hy) as (_ & _ & E2).
  rewrite E1, E2, Hpq in E. apply app_inv_head in E. apply print_long_inj in E.
  assert (forall i j p q, i < j -> nth_error os i = Some (Gensym p) -> nth_error os j = Some (Gensym q) ->
     length (filter is_gensym (firstn i os)) < length (filter is_gensym (firstn j os))) as G.
  { clear. induction os as [|o r IH]; intros [|i] [|j] p q Hlt Hi Hj; simpl in *; try discriminate; try lia.
    - injection Hi as ->. simpl. lia.
    - assert (i < j) by lia. specialize (IH i j p q H Hi Hj). destruct (is_gensym o); simpl; lia. }
  destruct (Nat.lt_total i j) as [L|[L|L]]; [|lia|].
  - specialize (G _ _ _ _ L Hi Hj). lia.
  - specialize (G _ _ _ _ L Hj Hi). lia.
Qed.

(** ** The symbol interned at a growth point is lost *)
Lemma fresh_run : forall ns st pre prex, hist st pre prex ->
  (forall n, In n ns -> nul_free n) -> NoDup ns ->
  (forall n b, In n ns -> In (Intern b) pre -> cstr b <> n) ->
  length (chains st) = N.to_nat 8209 -> (entries st + N.of_nat (length ns) <= 6157)%N ->
  exists st' xs, srun st (map Intern ns) = Some (st', xs) /\
    entries st' = (entries st + N.of_nat (length ns))%N /\ length (chains st') = N.to_nat 8209.
Proof.
  induction ns as [|n ns IH]; intros st pre prex HH Hnf Hnd Hpre Hl He; cbn [map srun length] in *.
  - exists st, []. split; auto. split; auto. lia.
  - assert (O : overloaded st = false).
    { unfold overloaded. apply N.ltb_ge. rewrite Hl. lia. }
    assert (Hn : cstr n = n) by (apply cstr_nul_free, Hnf; left; auto).
    destruct (intern st n) as [[st1 x]|] eqn:E.
    2: { exfalso. unfold intern in E. destruct (find _ _); [discriminate|].
         change (overloaded (new_symbol st (cstr n))) with (overloaded st) in E.
         rewrite O in E. discriminate. }
    cbn [sstep]. rewrite E.
    destruct (intern_ok _ _ _ _ (h_tab _ _ _ HH) E) as [(-> & Hin & Hnm)|(F & Hx & Hnames & _ & I' & P & Hov & _)].
    + exfalso. destruct (h_named _ _ _ HH _ Hin) as (b & Hb & Hb2).
      eapply (Hpre n b); auto. left; auto. congruence.
    + assert (Ee : entries st1 = (entries st + 1)%N).
      { rewrite (ti_entries _ I'), P. simpl. rewrite (ti_entries _ (h_tab _ _ _ HH)). lia. }
      destruct (IH st1 (pre ++ [Intern n]) (prex ++ [x])) as (st' & xs & R1 & R2 & R3).
      * eapply hist_step; eauto.
      * intros; apply Hnf; right; auto.
      * inversion Hnd; auto.
      * intros m b Hm Hb. apply in_app_iff in Hb as [Hb|[Hb|[]]].
        -- apply Hpre; auto. right; auto.
        -- injection Hb as <-. rewrite Hn. inversion Hnd; subst. intros ->; auto.
      * rewrite (proj1 (Hov O)); auto.
      * lia.
      * rewrite R1. exists st', (x :: xs). split; auto. split; auto. lia.
Qed.

Definition filler (n : nat) : name := repeat "a"%char n.
Lemma filler_inj a b : filler a = filler b -> a = b.
Proof. intros E. rewrite <- (repeat_length "a"%char a), <- (repeat_length "a"%char b). unfold filler in E. congruence. Qed.

Definition fill : list sop := map Intern (map filler (seq 0 (N.to_nat 6157))).
Definition lost : name := s2b "b".

Theorem growth_loses_symbol : exists st xs x y,
  srun sym_init (fill ++ [Intern lost; Intern lost]) = Some (st, xs) /\
  nth_error xs (N.to_nat 6157) = Some x /\ nth_error xs (S (N.to_nat 6157)) = Some y /\ x <> y.
Proof.
  set (k := N.to_nat 6157).
  assert (Hns : length (map filler (seq 0 k)) = k) by (rewrite map_length, seq_length; auto).
  assert (Hnf : forall n, In n (map filler (seq 0 k)) -> nul_free n).
  { intros n Hn. apply in_map_iff in Hn as (i & <- & _). intros Hin. apply repeat_spec in Hin. discriminate. }
  destruct (fresh_run (map filler (seq 0 k)) sym_init [] []) as (st1 & xs1 & R & Ee & Hl).
  - apply hist_init.
  - exact Hnf.
  - apply FinFun.Injective_map_NoDup; [intros a b; apply filler_inj|apply seq_NoDup].
  - intros n b _ [].
  - cbn [chains sym_init]. rewrite repeat_length. reflexivity.
  - rewrite map_length, seq_length. cbn [entries sym_init]. unfold k. lia.
  - rewrite map_length, seq_length in Ee. cbn [entries sym_init] in Ee.
    pose proof (hist_of_run _ _ _ R) as HH. pose proof (h_tab _ _ _ HH) as I.
    pose proof (srun_length _ _ _ _ R) as Lx. rewrite !map_length, seq_length in Lx.
    assert (Ptr : alloc_ptr st1 = 9).
    { pose proof (ti_alloc _ I) as A. rewrite Hl, N2Nat.id in A.
      assert (A9 : nth_error bucket_sizes 9 = Some 8209%N) by reflexivity.
      rewrite <- A9 in A. assert (alloc_ptr st1 < 59).
      { apply (nth_error_Some bucket_sizes). rewrite A, A9. discriminate. }
      assert (Q : NoDup bucket_sizes).
      { apply (NoDup_count_occ N.eq_dec). intros z.
        destruct (in_dec N.eq_dec z bucket_sizes) as [Hi|Hi].
        2: { apply (count_occ_not_In N.eq_dec) in Hi. rewrite Hi; lia. }
        assert (G : forallb (fun z => Nat.leb (count_occ N.eq_dec bucket_sizes z) 1) bucket_sizes = true) by reflexivity.
        rewrite forallb_forall in G. apply Nat.leb_le, G; auto. }
      rewrite NoDup_nth_error in Q. apply Q; auto. }
    assert (Hno : forall x, In x (concat (chains st1)) -> name_of st1 x <> lost).
    { intros x Hx E. destruct (h_named _ _ _ HH _ Hx) as (b & Hb & Hb2).
      apply in_map_iff in Hb as (n & En & Hn). injection En as ->.
      apply in_map_iff in Hn as (i & <- & Hi). rewrite Hb2 in E.
      rewrite cstr_nul_free in E by (apply Hnf; apply in_map; auto).
      destruct i as [|i]; discriminate. }
    assert (Hlost : cstr lost = lost) by reflexivity.
    assert (O : overloaded st1 = true).
    { unfold overloaded. rewrite Ee, Hl. apply N.ltb_lt. unfold k. lia. }
    destruct (intern st1 lost) as [[st2 x]|] eqn:E1.
    2: { exfalso. unfold intern in E1. destruct (find _ _); [discriminate|].
         change (overloaded (new_symbol st1 (cstr lost))) with (overloaded st1) in E1.
         rewrite O in E1. unfold resize in E1. cbn [alloc_ptr new_symbol] in E1. rewrite Ptr in E1. discriminate. }
    (* the slot of [lost] in the grown table does not contain it *)
    assert (S2 : x = length (names st1) /\ names st2 = names st1 ++ [lost] /\ length (chains st2) = N.to_nat 16411 /\
                 tab_inv st2 /\ ~ In x (nth (slot lost (N.to_nat 16411)) (chains st2) []) /\
                 (forall y, In y (concat (chains st2)) -> y = x \/ In y (concat (chains st1)))).
    { pose proof E1 as E1'.
      destruct (intern_ok _ _ _ _ I E1) as [(-> & Hin & Hnm)|(F & Hx & Hnames & _ & I' & P & _ & _)].
      { exfalso. rewrite Hlost in Hnm. eapply Hno; eauto. }
      split; auto. split; auto.
      unfold intern in E1'. rewrite F in E1'. fold (new_symbol st1 (cstr lost)) in E1'.
      change (overloaded (new_symbol st1 (cstr lost))) with (overloaded st1) in E1'.
      rewrite O in E1'. unfold resize in E1'. cbn [alloc_ptr new_symbol] in E1'. rewrite Ptr in E1'.
      change (nth_error bucket_sizes 10) with (Some 16411%N) in E1'.
      injection E1' as E1' _. rewrite <- E1'. cbn [chains].
      destruct (move_all_ok (name_of (new_symbol st1 (cstr lost))) (N.to_nat 16411) (chains st1)) as (M1 & M2 & M3); [lia|].
      rewrite push_chain_length. cbn [chains new_symbol]. split; [exact M1|]. split; [rewrite E1'; exact I'|]. split.
      - assert (Hs : slot (cstr lost) (length (chains st1)) <> slot lost (N.to_nat 16411)).
        { unfold slot. rewrite Hl, !N2Nat.id. rewrite Hlost. intros Hc. apply N2Nat.inj in Hc.
          vm_compute in Hc. discriminate. }
        unfold push_chain. rewrite nth_upd_ne' by exact Hs.
        intros Hin. apply in_nth_concat in Hin. rewrite M2 in Hin. apply (ti_range _ I) in Hin. lia.
      - intros y Hy. rewrite push_chain_perm in Hy.
        + destruct Hy as [Hy|Hy]; [left; congruence|]. rewrite M2 in Hy. auto.
        + eapply Nat.lt_le_trans; [|apply Nat.eq_le_incl; symmetry; exact M1].
          apply Nat.lt_trans with (N.to_nat 8209); [|lia]. rewrite Hl. apply slot_lt. lia. }
    destruct S2 as (Hx & Hnames & Hl2 & I2 & Hnot & Hsub).
    assert (Fnone : find (fun x => name_eqb (name_of st2 x) lost) (nth (slot lost (length (chains st2))) (chains st2) []) = None).
    { rewrite Hl2. destruct (find _ _) as [y|] eqn:Fy; auto. exfalso.
      apply find_some_in in Fy as [Fy1 Fy2]. apply name_eqb_eq in Fy2.
      destruct (Hsub y (in_nth_concat _ _ _ Fy1)) as [->|Hy]; [auto|].
      eapply Hno; [exact Hy|]. rewrite <- Fy2. unfold name_of. rewrite Hnames, app_nth1; auto.
      apply (ti_range _ I); auto. }
    assert (O2 : overloaded st2 = false).
    { unfold overloaded. rewrite Hl2. apply N.ltb_ge.
      assert (entries st2 <= 6158)%N; [|lia].
      rewrite (ti_entries _ I2).
      assert (length (concat (chains st2)) <= length (x :: concat (chains st1))).
      { apply NoDup_incl_length; [apply (ti_nodup _ I2)|]. intros z Hz. destruct (Hsub z Hz); [left; auto|right; auto]. }
      simpl in H. pose proof (ti_entries _ I). unfold k in Ee. lia. }
    destruct (intern st2 lost) as [[st3 y]|] eqn:E2.
    2: { exfalso. unfold intern in E2. rewrite Hlost, Fnone in E2.
         change (overloaded (new_symbol st2 lost)) with (overloaded st2) in E2.
         rewrite O2 in E2. discriminate. }
    assert (Hy : y = length (names st2)).
    { unfold intern in E2. rewrite Hlost, Fnone in E2.
      change (overloaded (new_symbol st2 lost)) with (overloaded st2) in E2.
      rewrite O2 in E2. injection E2 as _ E2. congruence. }
    exists st3, (xs1 ++ [x; y]), x, y. split; [|split; [|split]].
    + eapply srun_app_intro; [exact R|]. cbn [srun sstep]. rewrite E1, E2. reflexivity.
    + rewrite nth_error_app2 by lia. fold k. rewrite Lx, Nat.sub_diag. reflexivity.
    + rewrite nth_error_app2 by lia. fold k. rewrite Lx. replace (S k - k) with 1 by lia. reflexivity.
    + rewrite Hy, Hnames, app_length, Hx. simpl. lia.
Qed.
