(** Theorems about symbols (C08, C09).

    A history is a list of [Intern] (string->symbol, read, fasl-read) and
    [Gensym] calls on a freshly started system; [srun] returns the symbol object
    each call yielded, so [eq?] is equality of the numbers returned. *)
From Coq Require Import ZArith NArith Bool Ascii String List Lia.
From Verif Require Import Base Decimal Hashtable Symbol SymbolProofs.
Import ListNotations.

(** Histories of fewer than 2^60 calls always complete. *)
Theorem C08_history_completes os : (N.of_nat (length os) < 2 ^ 60)%N ->
  exists st xs, srun sym_init os = Some (st, xs) /\ length xs = length os.
Proof.
  intros H. destruct (run_total os H) as (st & xs & R). exists st, xs. split; auto.
  eapply srun_length; eauto.
Qed.

(** Different names never give the same symbol. *)
Theorem C08_different_names os st xs i j a b x y : srun sym_init os = Some (st, xs) ->
  nth_error os i = Some (Intern a) -> nth_error os j = Some (Intern b) ->
  nth_error xs i = Some x -> nth_error xs j = Some y ->
  cstr a <> cstr b -> x <> y.
Proof. exact (different_names os st xs i j a b x y). Qed.

(** Same name, same symbol: holds for every name except one that is first
    interned exactly when the table grows.  Missing from the full statement: the
    names first interned at a growth point (see [C08_same_name_refuted]). *)
Theorem C08_same_name_partial os1 a os2 st xs :
  srun sym_init (os1 ++ Intern a :: os2) = Some (st, xs) ->
  (forall b, In (Intern b) os1 -> cstr b <> cstr a) ->
  ~ growth_point (distinct_interned os1 (firstn (length os1) xs)) ->
  forall j b, nth_error os2 j = Some (Intern b) -> cstr b = cstr a ->
    nth_error xs (length os1 + S j) = nth_error xs (length os1).
Proof. exact (same_name os1 a os2 st xs). Qed.

Lemma first_growth n : growth_point n -> (6157 <= N.of_nat n)%N.
Proof.
  intros (b & Hb & E).
  assert (G : forallb (fun b => 6157 <=? 3 * b / 4 + 1)%N (skipn 9 bucket_sizes) = true) by reflexivity.
  rewrite forallb_forall in G. specialize (G b Hb). apply N.leb_le in G.
  lia.
Qed.

Lemma distinct_interned_le os : forall xs, distinct_interned os xs <= length os.
Proof.
  intros xs. unfold distinct_interned.
  assert (G : forall os xs, length (interned os xs) <= length os).
  { clear. induction os as [|[]]; destruct xs; simpl; try lia; specialize (IHos xs); lia. }
  etransitivity; [|apply (G os xs)]. apply NoDup_incl_length; [apply NoDup_nodup|].
  intros z Hz. apply nodup_In in Hz; exact Hz.
Qed.

(** In particular the full statement holds in every run that interns for the
    first time at most 6157 names: any two calls [i < j] with the same name. *)
Theorem C08_same_name_small os st xs i j a b :
  srun sym_init os = Some (st, xs) -> (N.of_nat (length os) <= 6157)%N -> i < j ->
  nth_error os i = Some (Intern a) -> nth_error os j = Some (Intern b) -> cstr a = cstr b ->
  nth_error xs i = nth_error xs j.
Proof.
  intros H Hlen Hij Hi Hj Hab.
  (* the first call with this name *)
  assert (exists k c, k <= i /\ nth_error os k = Some (Intern c) /\ cstr c = cstr a /\
            forall b, In (Intern b) (firstn k os) -> cstr b <> cstr c) as (k & c & Hk & Hc & Hca & Hfst).
  { clear - Hi. revert i a Hi. induction os as [|o os IH]; intros [|i] a Hi; try discriminate.
    - injection Hi as ->. exists 0, a. simpl. split; [lia|]. split; auto.
    - simpl in Hi.
      destruct o as [b|p].
      + destruct (list_eq_dec ascii_dec (cstr b) (cstr a)) as [E|NE].
        * exists 0, b. simpl. split; [lia|]. split; auto.
        * destruct (IH _ _ Hi) as (k & c & H1 & H2 & H3 & H4). exists (S k), c. simpl.
          split; [lia|]. split; auto. split; auto. intros d [Hd|Hd]; auto.
          injection Hd as <-. congruence.
      + destruct (IH _ _ Hi) as (k & c & H1 & H2 & H3 & H4). exists (S k), c. simpl.
        split; [lia|]. split; auto. split; auto. intros d [Hd|Hd]; auto. discriminate. }
  destruct (nth_error_split _ _ Hc) as (o1 & o2 & -> & L1).
  rewrite firstn_app, <- L1, Nat.sub_diag, firstn_all in Hfst. simpl in Hfst. rewrite app_nil_r in Hfst.
  rewrite app_length in Hlen. simpl in Hlen.
  assert (Hng : ~ growth_point (distinct_interned o1 (firstn (length o1) xs))).
  { intros G. apply first_growth in G. pose proof (distinct_interned_le o1 (firstn (length o1) xs)). lia. }
  assert (Hval : forall m d, k <= m -> nth_error (o1 ++ Intern c :: o2) m = Some (Intern d) -> cstr d = cstr a ->
                   nth_error xs m = nth_error xs (length o1)).
  { intros m d Hm Hd Hda. destruct (Nat.eq_dec m k) as [->|Hne]; [congruence|].
    replace m with (length o1 + S (m - k - 1)) by lia.
    apply (C08_same_name_partial _ _ _ _ _ H Hfst Hng _ d); [|congruence].
    rewrite nth_error_app2 in Hd by lia. replace (m - length o1) with (S (m - k - 1)) in Hd by lia. exact Hd. }
  rewrite (Hval i a), (Hval j b); auto; lia.
Qed.

(** The full statement is false: intern 6157 other names (the strings of 0 to
    6156 letters a); the next new name is put into the wrong bucket of the grown
    table, and interning it again makes a second symbol with the same name. *)
Theorem C08_same_name_refuted : exists os st xs i j a b x y,
  srun sym_init os = Some (st, xs) /\ nth_error os i = Some (Intern a) /\
  nth_error os j = Some (Intern b) /\ cstr a = cstr b /\
  nth_error xs i = Some x /\ nth_error xs j = Some y /\ x <> y.
Proof.
  destruct growth_loses_symbol as (st & xs & x & y & R & Hx & Hy & Hne).
  exists (fill ++ [Intern lost; Intern lost]), st, xs, (N.to_nat 6157), (S (N.to_nat 6157)), lost, lost, x, y.
  assert (L : length fill = N.to_nat 6157) by (unfold fill; rewrite !map_length, seq_length; reflexivity).
  split; [exact R|]. split; [|split; [|auto]].
  - rewrite nth_error_app2 by lia. rewrite L, Nat.sub_diag. reflexivity.
  - rewrite nth_error_app2 by lia. rewrite L. replace (S (N.to_nat 6157) - N.to_nat 6157) with 1 by lia. reflexivity.
Qed.

(** A gensym is different from the symbol returned by every other call of the
    history, earlier or later, interning or gensym. *)
Theorem C09_gensym_fresh os st xs i j p x y : srun sym_init os = Some (st, xs) ->
  nth_error os i = Some (Gensym p) -> i <> j ->
  nth_error xs i = Some x -> nth_error xs j = Some y -> x <> y.
Proof. exact (gensym_fresh os st xs i j p x y). Qed.

(** Two gensyms with the same prefix even print differently. *)
Theorem C09_gensym_names os st xs i j p q x y : srun sym_init os = Some (st, xs) ->
  nth_error os i = Some (Gensym p) -> nth_error os j = Some (Gensym q) -> i <> j ->
  cstr p = cstr q -> nth_error xs i = Some x -> nth_error xs j = Some y ->
  name_of st x <> name_of st y.
Proof. exact (gensym_names os st xs i j p q x y). Qed.

(** The name a gensym gets: the prefix followed by the number of earlier gensyms. *)
Theorem C09_gensym_name os st xs i p x : srun sym_init os = Some (st, xs) ->
  nth_error os i = Some (Gensym p) -> nth_error xs i = Some x ->
  name_of st x = cstr p ++ print_long (Z.of_nat (length (filter is_gensym (firstn i os)))).
Proof. intros H Hi Hx. apply hist_of_run in H. apply (h_gensym _ _ _ H _ _ _ Hi Hx). Qed.

(** A concrete history: the names foo, bar, foo, a gensym g, the name g0 and foo. *)
Example symbols_example :
  option_map snd (srun sym_init [Intern (s2b "foo"); Intern (s2b "bar"); Intern (s2b "foo");
     Gensym (s2b "g"); Intern (s2b "g0"); Intern (s2b "foo")]) = Some [0; 1; 0; 2; 3; 0].
Proof. vm_compute. reflexivity. Qed.

Print Assumptions C08_history_completes.
Print Assumptions C08_different_names.
Print Assumptions C08_same_name_partial.
Print Assumptions C08_same_name_small.
Print Assumptions C08_same_name_refuted.
Print Assumptions C09_gensym_fresh.
Print Assumptions C09_gensym_names.
Print Assumptions C09_gensym_name.
