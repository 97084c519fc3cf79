(** Refinement of pointer-level hashtables to finite maps. *)
From Coq Require Import ZArith NArith Bool Ascii String List Lia Permutation.
From Verif Require Import Base Hashtable.
Import ListNotations.

(** ** List facts *)

Lemma upd_length {A} i (x : A) l : length (upd i x l) = length l.
Proof. revert i; induction l as [|y l IH]; intros [|i]; simpl; auto. Qed.

Lemma nth_upd_eq {A} i (x : A) l : i < length l -> nth_error (upd i x l) i = Some x.
Proof. revert i; induction l as [|y l IH]; intros [|i]; simpl; intros; try lia; auto. apply IH; lia. Qed.

Lemma nth_upd_ne {A} i j (x : A) l : i <> j -> nth_error (upd i x l) j = nth_error l j.
Proof. revert i j; induction l as [|y l IH]; intros [|i] [|j]; simpl; intros; try lia; auto. Qed.

Lemma upd_split {A} i (x : A) l : i < length l ->
  exists l1 y l2, l = l1 ++ y :: l2 /\ length l1 = i /\ upd i x l = l1 ++ x :: l2.
Proof.
  revert i; induction l as [|z l IH]; intros [|i]; simpl; intros H; try lia.
  - exists [], z, l. auto.
  - destruct (IH i ltac:(lia)) as (l1 & y & l2 & -> & <- & E). exists (z :: l1), y, l2.
    simpl. rewrite E. auto.
Qed.

Lemma nth_split_at {A} i (x : A) l : nth_error l i = Some x ->
  exists l1 l2, l = l1 ++ x :: l2 /\ length l1 = i /\ (forall y, upd i y l = l1 ++ y :: l2).
Proof.
  revert i; induction l as [|z l IH]; intros [|i]; simpl; intros H; try discriminate.
  - inversion H; subst. exists [], l. auto.
  - destruct (IH i H) as (l1 & l2 & -> & <- & E). exists (z :: l1), l2.
    simpl. split; [auto|split;[auto|]]. intros y. now rewrite E.
Qed.

Lemma Forall2_nth {A B} (R : A -> B -> Prop) la lb i a :
  Forall2 R la lb -> nth_error la i = Some a -> exists b, nth_error lb i = Some b /\ R a b.
Proof.
  intros H; revert i; induction H; intros [|i] E; simpl in *; try discriminate.
  - inversion E; subst. eauto.
  - eauto.
Qed.

Lemma Forall2_nth_r {A B} (R : A -> B -> Prop) la lb i b :
  Forall2 R la lb -> nth_error lb i = Some b -> exists a, nth_error la i = Some a /\ R a b.
Proof.
  intros H; revert i; induction H; intros [|i] E; simpl in *; try discriminate.
  - inversion E; subst. eauto.
  - eauto.
Qed.

Lemma Forall2_len {A B} (R : A -> B -> Prop) la lb : Forall2 R la lb -> length la = length lb.
Proof. induction 1; simpl; auto. Qed.

Lemma Forall2_upd {A B} (R : A -> B -> Prop) la lb i a b :
  Forall2 R la lb -> R a b -> Forall2 R (upd i a la) (upd i b lb).
Proof. intros H; revert i; induction H; intros [|i] E; simpl; constructor; auto. Qed.

Lemma Forall2_impl' {A B} (R S : A -> B -> Prop) la lb :
  (forall a b, In b lb -> R a b -> S a b) -> Forall2 R la lb -> Forall2 S la lb.
Proof. intros HI H. revert HI. induction H; intros HI; constructor; auto with datatypes. Qed.

Lemma concat_upd_perm {A} i (x : A) l ls : nth_error ls i = Some l ->
  Permutation (concat (upd i (x :: l) ls)) (x :: concat ls).
Proof.
  intros H. destruct (nth_split_at _ _ _ H) as (l1 & l2 & E1 & _ & E2).
  rewrite E2, E1, !concat_app. simpl. symmetry. apply Permutation_middle.
Qed.

Lemma nth_error_concat_in {A} i (l : list A) ls x : nth_error ls i = Some l -> In x l -> In x (concat ls).
Proof. intros H Hx. apply in_concat. exists l. split; auto. eapply nth_error_In; eauto. Qed.

Lemma in_concat_nth {A} (x : A) ls : In x (concat ls) -> exists i l, nth_error ls i = Some l /\ In x l.
Proof.
  intros H. apply in_concat in H. destruct H as (l & H1 & H2).
  apply In_nth_error in H1. destruct H1 as (i & H1). eauto.
Qed.

Lemma find_some_in {A} (f : A -> bool) l x : find f l = Some x -> In x l /\ f x = true.
Proof. apply find_some. Qed.

Lemma alloc_for_ok n : (n <= 4611686018427388039)%N ->
  exists a, alloc_for n = Some a /\ (0 < a)%N /\ (n <= a)%N.
Proof.
  intros H. unfold alloc_for. destruct (find (fun b => (n <=? b)%N) bucket_sizes) as [a|] eqn:E.
  - exists a. apply find_some in E. destruct E as [E1 E2]. apply N.leb_le in E2. split; auto. split; auto.
    assert (P : Forall (fun b => (0 < b)%N) bucket_sizes).
    { unfold bucket_sizes. repeat constructor. }
    rewrite Forall_forall in P. auto.
  - exfalso. assert (F := find_none _ _ E 4611686018427388039%N). 
    assert (I : In 4611686018427388039%N bucket_sizes).
    { unfold bucket_sizes. do 58 right. left. reflexivity. }
    specialize (F I). simpl in F. apply N.leb_gt in F. lia.
Qed.

Lemma NoDup_app_remove_l {A} (l l' : list A) : NoDup (l ++ l') -> NoDup l'.
Proof. induction l as [|x l IH]; simpl; intros H; auto. inversion H; auto. Qed.
Lemma NoDup_app_remove_r {A} (l l' : list A) : NoDup (l ++ l') -> NoDup l.
Proof.
  induction l as [|x l IH]; simpl; intros H; constructor; inversion H; subst; auto.
  intros I. apply H2. apply in_or_app. auto.
Qed.

Section Proofs.
Variables K V : Type.
Variable hash : K -> Z.
Variable equiv : K -> K -> bool.
Hypothesis equiv_refl : forall a, equiv a a = true.
Hypothesis equiv_sym : forall a b, equiv a b = equiv b a.
Hypothesis equiv_trans : forall a b c, equiv a b = true -> equiv b c = true -> equiv a c = true.
Hypothesis hash_compat : forall a b, equiv a b = true -> hash a = hash b.

Notation heap := (heap K V).
Notation node_t := (nat -> option (nat * option nat)).

(** ** Chains *)

Fixpoint chain (nd : node_t) (p : option nat) (l : list (nat * nat)) : Prop :=
  match l with
  | [] => p = None
  | (n, c) :: r => p = Some n /\ exists nx, nd n = Some (c, nx) /\ chain nd nx r
  end.

Lemma chain_ext nd nd' : forall l p,
  (forall n, In n (map fst l) -> nd' n = nd n) -> chain nd p l -> chain nd' p l.
Proof.
  induction l as [|[n c] l IH]; simpl; intros p H C; auto.
  destruct C as (-> & nx & E & C). split; auto. exists nx. rewrite H by auto. split; auto.
Qed.

Lemma chain_dom nd : forall l p n, chain nd p l -> In n (map fst l) -> nd n <> None.
Proof.
  induction l as [|[m c] l IH]; simpl; intros p n C H; [tauto|].
  destruct C as (-> & nx & E & C). destruct H as [<-|H]; [congruence|eauto].
Qed.

(** Layout of one table: per bucket, the (spine pair, cell) addresses. *)
Definition layout := list (list (nat * nat)).
Definition nids (ls : layout) : list nat := map fst (concat ls).
Definition cids (ls : layout) : list nat := map snd (concat ls).

Definition shape (h : heap) (bs : list (option nat)) (ls : layout) : Prop :=
  Forall2 (chain (nodes _ _ h)) bs ls /\ NoDup (nids ls) /\
  (forall n, In n (nids ls) -> n < nnode _ _ h).

Definition placed (h : heap) (alloc : nat) (ls : layout) : Prop :=
  forall i l n c, nth_error ls i = Some l -> In (n, c) l ->
  exists k v, cells _ _ h c = Some (k, v) /\ index (hash k) alloc = i.

Definition distinct (m : list (K * V)) : Prop :=
  ForallOrdPairs (fun a b => equiv (fst a) (fst b) = false) m.

Definition holds (h : heap) (ls : layout) (m : list (K * V)) : Prop :=
  Permutation (map (cells _ _ h) (cids ls)) (map Some m).

Record tab_ok (h : heap) (t : table) (ls : layout) (m : list (K * V)) : Prop := mk_tab_ok {
  ok_shape : shape h (buckets t) ls;
  ok_cnodup : NoDup (cids ls);
  ok_cbound : forall c, In c (cids ls) -> c < ncell _ _ h;
  ok_placed : placed h (length (buckets t)) ls;
  ok_holds : holds h ls m;
  ok_distinct : distinct m;
  ok_count : count t = Z.of_nat (length m);
  ok_alloc : 0 < length (buckets t) }.

(** What an operation on a table with layout [ls] may do to the heap. *)
Record frame (h h' : heap) (ls ls' : layout) : Prop := mk_frame {
  fr_node : forall n, n < nnode _ _ h -> ~ In n (nids ls) -> nodes _ _ h' n = nodes _ _ h n;
  fr_cell : forall c, c < ncell _ _ h -> ~ In c (cids ls) -> cells _ _ h' c = cells _ _ h c;
  fr_nn : nnode _ _ h <= nnode _ _ h';
  fr_nc : ncell _ _ h <= ncell _ _ h';
  fr_nids : forall n, In n (nids ls') -> In n (nids ls) \/ nnode _ _ h <= n;
  fr_cids : forall c, In c (cids ls') -> In c (cids ls) \/ ncell _ _ h <= c }.

Lemma frame_refl h ls : frame h h ls ls.
Proof. constructor; auto. Qed.

Lemma frame_trans h1 h2 h3 l1 l2 l3 : frame h1 h2 l1 l2 -> frame h2 h3 l2 l3 -> frame h1 h3 l1 l3.
Proof.
  intros [a1 a2 a3 a4 a5 a6] [b1 b2 b3 b4 b5 b6]. constructor; try lia.
  - intros n H N. rewrite b1; [auto|lia|]. intros I. apply a5 in I. destruct I; [tauto|lia].
  - intros n H N. rewrite b2; [auto|lia|]. intros I. apply a6 in I. destruct I; [tauto|lia].
  - intros n I. apply b5 in I. destruct I as [I|I]; [|right; lia]. apply a5 in I. tauto.
  - intros n I. apply b6 in I. destruct I as [I|I]; [|right; lia]. apply a6 in I. tauto.
Qed.

Lemma nids_in ls l n : In l ls -> In n (map fst l) -> In n (nids ls).
Proof.
  intros H I. unfold nids. apply in_map_iff in I. destruct I as (x & <- & I). apply in_map.
  apply in_concat. eauto.
Qed.
Lemma cids_in ls l n : In l ls -> In n (map snd l) -> In n (cids ls).
Proof.
  intros H I. unfold cids. apply in_map_iff in I. destruct I as (x & <- & I). apply in_map.
  apply in_concat. eauto.
Qed.

(** A table untouched by an operation stays what it was. *)
Lemma tab_ok_ext h h' t ls m :
  tab_ok h t ls m ->
  (forall n, In n (nids ls) -> nodes _ _ h' n = nodes _ _ h n) ->
  (forall c, In c (cids ls) -> cells _ _ h' c = cells _ _ h c) ->
  nnode _ _ h <= nnode _ _ h' -> ncell _ _ h <= ncell _ _ h' ->
  tab_ok h' t ls m.
Proof.
  intros [(S1 & S2 & S3) c1 c2 pl ho di co al] Hn Hc Ln Lc. constructor; auto.
  - split; [|split; auto].
    + eapply Forall2_impl'; [|exact S1]. intros p l I C. eapply chain_ext; [|exact C].
      intros. apply Hn. eapply nids_in; eauto.
    + intros n I. specialize (S3 n I). lia.
  - intros c I. specialize (c2 c I). lia.
  - intros i l n c H I. destruct (pl i l n c H I) as (k & v & E & F). exists k, v. split; auto.
    rewrite Hc; auto. eapply cids_in; [eapply nth_error_In; eauto|]. apply (in_map snd) in I. exact I.
  - unfold holds in *. rewrite <- ho. erewrite map_ext_in; [reflexivity|]. auto.
Qed.

(** ** Fuel *)

Lemma chain_fuel h bs ls l : shape h bs ls -> In l ls -> length l <= nnode _ _ h.
Proof.
  intros (S1 & S2 & S3) I.
  assert (N : NoDup (map fst l)).
  { apply in_split in I. destruct I as (l1 & l2 & ->). unfold nids in S2.
    rewrite concat_app in S2. simpl in S2. rewrite !map_app in S2.
    apply NoDup_app_remove_l in S2. apply NoDup_app_remove_r in S2. exact S2. }
  rewrite <- (map_length fst l). rewrite <- (seq_length (nnode _ _ h) 0).
  apply NoDup_incl_length; auto. intros n Hn. apply in_seq.
  assert (n < nnode _ _ h) by (apply S3; eapply nids_in; eauto). lia.
Qed.

(** ** Lookup *)

Definition cells_ok (h : heap) (l : list (nat * nat)) : Prop :=
  forall n c, In (n, c) l -> cells _ _ h c <> None.

Lemma find_cell_ok h k : forall l p fuel, length l < fuel -> chain (nodes _ _ h) p l -> cells_ok h l ->
  (exists l1 n c l2 k' v, l = l1 ++ (n, c) :: l2 /\ cells _ _ h c = Some (k', v) /\ equiv k' k = true /\
     find_cell _ _ equiv fuel h p k = Some (Some c)) \/
  ((forall n c k' v, In (n, c) l -> cells _ _ h c = Some (k', v) -> equiv k' k = false) /\
     find_cell _ _ equiv fuel h p k = Some None).
Proof.
  induction l as [|[n c] l IH]; intros p fuel L C O.
  - simpl in C. subst. right. split; [simpl; tauto|]. destruct fuel; reflexivity.
  - simpl in C. destruct C as (-> & nx & E & C). destruct fuel as [|fuel]; [simpl in L; lia|].
    simpl. rewrite E. destruct (cells _ _ h c) as [[k' v]|] eqn:Ec; [|exfalso; eapply O; [left; eauto|auto]].
    destruct (equiv k' k) eqn:Q.
    + left. exists [], n, c, l, k', v. repeat split; auto.
    + assert (O' : cells_ok h l) by (intros a b I; apply (O a b); simpl; auto).
      simpl in L. destruct (IH nx fuel ltac:(lia) C O') as [(l1 & n1 & c1 & l2 & k1 & v1 & -> & A & B & D)|(A & D)].
      * left. exists ((n,c) :: l1), n1, c1, l2, k1, v1. repeat split; auto.
      * right. split; auto. intros n0 c0 k0 v0 [I|I] J; [|eauto]. inversion I; subst. congruence.
Qed.

Lemma placed_cells_ok h a ls i l : placed h a ls -> nth_error ls i = Some l -> cells_ok h l.
Proof. intros P E n c I. destruct (P i l n c E I) as (k & v & F & _). congruence. Qed.

Lemma index_lt z a : 0 < a -> index z a < a.
Proof.
  intros H. unfold index. assert (L := N.mod_upper_bound (u64_of_long z) (N.of_nat a) ltac:(lia)). lia.
Qed.

Lemma bucket_of h t ls m k : tab_ok h t ls m ->
  exists p l, nth_error (buckets t) (kindex _ hash k t) = Some p /\
    nth_error ls (kindex _ hash k t) = Some l /\ chain (nodes _ _ h) p l /\ cells_ok h l /\
    length l < S (nnode _ _ h).
Proof.
  intros T. destruct (ok_shape _ _ _ _ T) as (S1 & S2 & S3).
  assert (L : kindex _ hash k t < length (buckets t)) by (apply index_lt, (ok_alloc _ _ _ _ T)).
  apply nth_error_Some in L. destruct (nth_error (buckets t) (kindex _ hash k t)) as [p|] eqn:E; [|congruence].
  destruct (Forall2_nth _ _ _ _ _ S1 E) as (l & El & C). exists p, l. repeat split; auto.
  - eapply placed_cells_ok; eauto. apply T.
  - assert (X := chain_fuel _ _ _ l (ok_shape _ _ _ _ T) ltac:(eapply nth_error_In; eauto)). lia.
Qed.

(** Abstract lookup agrees with membership. *)
Lemma aget_in m k k' v : distinct m -> In (k', v) m -> equiv k' k = true -> aget K V equiv m k = Some v.
Proof.
  induction m as [|[k1 v1] m IH]; simpl; intros D I Q; [tauto|]. inversion D as [|? ? D1 D2]; subst.
  destruct I as [I|I].
  - inversion I; subst. now rewrite Q.
  - destruct (equiv k1 k) eqn:Q1; [|auto]. exfalso. rewrite Forall_forall in D1.
    specialize (D1 _ I). simpl in D1. rewrite (equiv_trans k1 k k') in D1; auto; [congruence|].
    now rewrite equiv_sym.
Qed.

Lemma aget_none m k : (forall k' v, In (k', v) m -> equiv k' k = false) -> aget K V equiv m k = None.
Proof.
  induction m as [|[k1 v1] m IH]; simpl; intros H; auto. rewrite (H k1 v1) by auto. apply IH. eauto.
Qed.

Lemma aget_none_inv m k : aget K V equiv m k = None -> forall k' v, In (k', v) m -> equiv k' k = false.
Proof.
  induction m as [|[k1 v1] m IH]; simpl; intros H k' v; [tauto|].
  destruct (equiv k1 k) eqn:E; [discriminate|]. intros [I|I]; [inversion I; subst; auto|eauto].
Qed.

Lemma holds_in h ls m c kv : holds h ls m -> In c (cids ls) -> cells _ _ h c = Some kv -> In kv m.
Proof.
  intros H I E. assert (X : In (Some kv) (map Some m)).
  { eapply Permutation_in; [exact H|]. rewrite <- E. now apply in_map. }
  apply in_map_iff in X. destruct X as (y & Y & Z). congruence.
Qed.

Lemma holds_in_inv h ls m kv : holds h ls m -> In kv m -> exists c, In c (cids ls) /\ cells _ _ h c = Some kv.
Proof.
  intros H I. assert (X : In (Some kv) (map (cells _ _ h) (cids ls))).
  { eapply Permutation_in; [symmetry; exact H|]. now apply in_map. }
  apply in_map_iff in X. destruct X as (c & Y & Z). eauto.
Qed.

(** A cell whose key is equivalent to [k] can only be in the bucket of [k]. *)
Lemma right_bucket h t ls m k c k' v l : tab_ok h t ls m -> In c (cids ls) ->
  cells _ _ h c = Some (k', v) -> equiv k' k = true -> nth_error ls (kindex _ hash k t) = Some l ->
  exists n, In (n, c) l.
Proof.
  intros T I E Q N. unfold cids in I. apply in_map_iff in I. destruct I as ([n c'] & X & I). simpl in X. subst c'.
  apply in_concat_nth in I. destruct I as (i & l' & Hi & Hl).
  destruct (ok_placed _ _ _ _ T _ _ _ _ Hi Hl) as (k1 & v1 & E1 & P). rewrite E in E1. inversion E1; subst.
  exists n. unfold kindex in N. rewrite <- (hash_compat _ _ Q) in N. congruence.
Qed.

Lemma cell_ref_ok h t ls m k : tab_ok h t ls m ->
  (exists c k' v, cell_ref _ _ hash equiv h t k = Some (Some c) /\ In c (cids ls) /\
     cells _ _ h c = Some (k', v) /\ equiv k' k = true /\ aget K V equiv m k = Some v) \/
  (cell_ref _ _ hash equiv h t k = Some None /\ aget K V equiv m k = None).
Proof.
  intros T. destruct (bucket_of _ _ _ _ k T) as (p & l & Ep & El & C & O & L).
  unfold cell_ref. rewrite Ep.
  destruct (find_cell_ok h k l p (S (nnode _ _ h)) L C O) as
    [(l1 & n & c & l2 & k' & v & -> & A & B & D)|(A & D)].
  - left. exists c, k', v. split; auto.
    assert (I : In c (cids ls)).
    { eapply cids_in; [eapply nth_error_In; exact El|]. rewrite map_app. apply in_or_app. right. left. reflexivity. }
    repeat split; auto. eapply aget_in; [apply T| |exact B]. eapply holds_in; eauto. apply T.
  - right. split; auto. apply aget_none. intros k' v I.
    destruct (holds_in_inv _ _ _ _ (ok_holds _ _ _ _ T) I) as (c & Ic & Ec).
    destruct (equiv k' k) eqn:Q; auto.
    destruct (right_bucket _ _ _ _ _ _ _ _ _ T Ic Ec Q El) as (n & In'). 
    rewrite (A n c k' v In' Ec) in Q. discriminate.
Qed.

Lemma ht_ref_ok h t ls m k : tab_ok h t ls m ->
  ht_ref _ _ hash equiv h t k = Some (aget K V equiv m k).
Proof.
  intros T. unfold ht_ref. destruct (cell_ref_ok _ _ _ _ k T) as [(c & k' & v & A & B & C & D & E)|(A & E)];
    rewrite A, E; auto. rewrite C. auto.
Qed.

(** ** Assignment to an existing cell *)

Lemma holds_upd h ls m c k0 v0 v :
  NoDup (cids ls) -> holds h ls m -> distinct m -> In c (cids ls) -> cells _ _ h c = Some (k0, v0) ->
  holds (mkheap _ _ (fset (cells _ _ h) c (k0, v)) (ncell _ _ h) (nodes _ _ h) (nnode _ _ h)) ls
    (map (fun kv => if equiv (fst kv) k0 then (fst kv, v) else kv) m).
Proof.
  intros ND H D I E. unfold holds in *. simpl.
  pose (g := fun o : option (K * V) => match o with
     | Some kv => Some (if equiv (fst kv) k0 then (fst kv, v) else kv) | None => None end).
  assert (X : map (fset (cells _ _ h) c (k0, v)) (cids ls) = map g (map (cells _ _ h) (cids ls))).
  { rewrite map_map. apply map_ext_in. intros c' I'. unfold fset.
    destruct (Nat.eqb_spec c' c) as [->|N].
    - rewrite E. simpl. now rewrite equiv_refl.
    - destruct (cells _ _ h c') as [[k1 v1]|] eqn:E1; simpl; auto.
      destruct (equiv k1 k0) eqn:Q; auto. exfalso.
      (* two different cells with equivalent keys *)
      assert (P : exists r, Permutation (cids ls) (c :: c' :: r)).
      { apply in_split in I. destruct I as (a & b & Eab). rewrite Eab in *.
        assert (J : In c' (a ++ b)).
        { apply in_app_or in I'. apply in_or_app. simpl in I'. intuition congruence. }
        apply in_split in J. destruct J as (a' & b' & J).
        exists (a' ++ b'). rewrite <- Permutation_middle. constructor. rewrite J.
        symmetry. apply Permutation_middle. }
      destruct P as (r & P).
      assert (M : Permutation (map Some m) (map (cells _ _ h) (c :: c' :: r))).
      { rewrite <- H. now apply Permutation_map. }
      simpl in M. rewrite E, E1 in M. apply Permutation_sym in M.
      (* map Some m permutes to [Some .. ; Some ..] *)
      destruct (Permutation_map_inv _ _ M) as (m' & Em & Pm).
      destruct m' as [|x1 [|x2 m']]; simpl in Em; try discriminate. inversion Em; subst.
      assert (D' : distinct ((k0, v0) :: (k1, v1) :: m')).
      { clear -D Pm equiv_sym. unfold distinct in *. revert D. induction Pm; intros D; auto.
        - inversion D; subst. constructor; auto. rewrite Forall_forall in *. intros y Hy. apply H1.
          eapply Permutation_in; [symmetry; eauto|auto].
        - inversion D as [|? ? D1 D2]; subst. inversion D2 as [|? ? D3 D4]; subst. inversion D1; subst.
          constructor; [constructor|constructor]; auto. rewrite equiv_sym. auto. }
      inversion D' as [|? ? D1 D2]; subst. inversion D1; subst. simpl in *.
      rewrite equiv_sym in Q. congruence. }
  rewrite X. rewrite (Permutation_map g H). rewrite !map_map. apply Permutation_refl.
Qed.

Lemma distinct_perm m m' : Permutation m m' -> distinct m -> distinct m'.
Proof.
  unfold distinct. intros P. induction P; intros D; auto.
  - inversion D; subst. constructor; auto. rewrite Forall_forall in *. intros y Hy. apply H1.
    eapply Permutation_in; [symmetry; eauto|auto].
  - inversion D as [|? ? D1 D2]; subst. inversion D2 as [|? ? D3 D4]; subst. inversion D1; subst.
    constructor; [constructor|constructor]; auto. rewrite equiv_sym. auto.
Qed.

Lemma equiv_cong k0 k a : equiv k0 k = true -> equiv a k0 = equiv a k.
Proof.
  intros Q. destruct (equiv a k0) eqn:E1, (equiv a k) eqn:E2; auto.
  - rewrite (equiv_trans a k0 k) in E2; auto.
  - rewrite (equiv_trans a k k0) in E1; auto. now rewrite equiv_sym.
Qed.

Lemma distinct_map_val (f : K * V -> K * V) m : (forall kv, fst (f kv) = fst kv) -> distinct m -> distinct (map f m).
Proof.
  intros Hf D. induction D as [|a m D1 D2 IH]; simpl; constructor; auto.
  rewrite Forall_forall in *. intros y Hy. apply in_map_iff in Hy. destruct Hy as (z & <- & Hz).
  rewrite !Hf. auto.
Qed.

Lemma set_cell_ok h t ls m c k0 v0 k v : tab_ok h t ls m -> In c (cids ls) ->
  cells _ _ h c = Some (k0, v0) -> equiv k0 k = true ->
  exists h', set_cell _ _ h c v = Some h' /\ tab_ok h' t ls (aset K V equiv m k v) /\ frame h h' ls ls.
Proof.
  intros T I E Q. unfold set_cell. rewrite E. eexists; split; [reflexivity|].
  assert (A : aget K V equiv m k = Some v0).
  { eapply aget_in; [apply T| |exact Q]. eapply holds_in; eauto. apply T. }
  assert (AS : aset K V equiv m k v = map (fun kv => if equiv (fst kv) k0 then (fst kv, v) else kv) m).
  { unfold aset. rewrite A. apply map_ext. intros [a b]. simpl. now rewrite (equiv_cong k0 k a Q). }
  split.
  - rewrite AS. constructor; simpl.
    + destruct (ok_shape _ _ _ _ T) as (S1 & S2 & S3). split; auto.
    + apply T.
    + apply T.
    + intros i l n c' Hi Hl. destruct (ok_placed _ _ _ _ T _ _ _ _ Hi Hl) as (k1 & v1 & E1 & P).
      simpl. unfold fset. destruct (Nat.eqb_spec c' c) as [->|]; [|eauto]. exists k1, v.
      rewrite E in E1. inversion E1; subst. auto.
    + apply (holds_upd h ls m c k0 v0 v); auto; apply T.
    + apply distinct_map_val; [|apply T]. intros [a b]; simpl. destruct (equiv a k0); reflexivity.
    + rewrite map_length. apply T.
    + apply T.
  - constructor; simpl; auto. intros c' L N. unfold fset. destruct (Nat.eqb_spec c' c) as [->|]; tauto.
Qed.

(** ** Pushing a node *)

Lemma Forall2_upd_chain nd nd' bs ls i p l n c :
  Forall2 (chain nd) bs ls -> nth_error bs i = Some p -> nth_error ls i = Some l ->
  (forall m, In m (nids ls) -> nd' m = nd m) -> nd' n = Some (c, p) ->
  Forall2 (chain nd') (upd i (Some n) bs) (upd i ((n, c) :: l) ls).
Proof.
  intros F Ep El Ext En. apply Forall2_upd.
  - eapply Forall2_impl'; [|exact F]. intros q l' I C. eapply chain_ext; [|exact C].
    intros m Hm. apply Ext. eapply nids_in; eauto.
  - simpl. split; auto. exists p. split; auto.
    destruct (Forall2_nth _ _ _ _ _ F Ep) as (l' & El' & C). rewrite El in El'. inversion El'; subst.
    eapply chain_ext; [|exact C]. intros m Hm. apply Ext. eapply nids_in; [eapply nth_error_In; eauto|auto].
Qed.

Lemma push_ok h t ls k c : shape h (buckets t) ls -> 0 < length (buckets t) ->
  exists h' t' l, push _ _ hash h t k c = Some (h', t') /\
    nth_error ls (kindex _ hash k t) = Some l /\
    let ls' := upd (kindex _ hash k t) ((nnode _ _ h, c) :: l) ls in
    shape h' (buckets t') ls' /\ length (buckets t') = length (buckets t) /\ count t' = count t /\
    cells _ _ h' = cells _ _ h /\ ncell _ _ h' = ncell _ _ h /\ nnode _ _ h' = S (nnode _ _ h) /\
    (forall n, n <> nnode _ _ h -> nodes _ _ h' n = nodes _ _ h n) /\
    Permutation (concat ls') ((nnode _ _ h, c) :: concat ls).
Proof.
  intros (S1 & S2 & S3) L. unfold push.
  assert (X : kindex _ hash k t < length (buckets t)) by (apply index_lt; auto).
  assert (X' := X). apply nth_error_Some in X'. destruct (nth_error (buckets t) (kindex _ hash k t)) as [p|] eqn:Ep; [|congruence].
  destruct (Forall2_nth _ _ _ _ _ S1 Ep) as (l & El & C). cbn [new_node].
  assert (PM := concat_upd_perm _ (nnode _ _ h, c) l ls El).
  eexists _, _, l. split; [reflexivity|]. split; auto. cbn [buckets count cells ncell nnode nodes].
  split; [|repeat split; auto].
  - split; [|split].
    + eapply Forall2_upd_chain; eauto.
      * intros m Hm. cbn [nodes]. unfold fset. specialize (S3 m Hm). destruct (Nat.eqb_spec m (nnode _ _ h)); auto; lia.
      * cbn [nodes]. unfold fset. now rewrite Nat.eqb_refl.
    + unfold nids. eapply Permutation_NoDup; [symmetry; apply Permutation_map, PM|]. simpl. constructor; auto.
      intros I. specialize (S3 _ I). lia.
    + intros n I. cbn [nnode]. unfold nids in I. eapply Permutation_in in I; [|apply Permutation_map, PM].
      simpl in I. destruct I as [<-|I]; [lia|]. specialize (S3 _ I). lia.
  - apply upd_length.
  - intros n N. unfold fset. destruct (Nat.eqb_spec n (nnode _ _ h)); congruence.
Qed.

Lemma placed_push h h' a ls i l n c k v :
  placed h a ls -> nth_error ls i = Some l -> cells _ _ h' c = Some (k, v) ->
  (forall c', In c' (cids ls) -> cells _ _ h' c' = cells _ _ h c') ->
  index (hash k) a = i -> placed h' a (upd i ((n, c) :: l) ls).
Proof.
  intros P El Ec Ext Ei j l' n' c' Hj Hl.
  destruct (Nat.eq_dec i j) as [->|N].
  - assert (LT : j < length ls) by (apply nth_error_Some; congruence).
    rewrite nth_upd_eq in Hj by auto. inversion Hj; subst l'. destruct Hl as [Hl|Hl].
    + inversion Hl; subst. eauto.
    + destruct (P _ _ _ _ El Hl) as (k1 & v1 & A & B). exists k1, v1. split; auto. rewrite Ext; auto.
      eapply cids_in; [eapply nth_error_In; exact El|]. apply (in_map snd) in Hl. exact Hl.
  - rewrite nth_upd_ne in Hj by auto. destruct (P _ _ _ _ Hj Hl) as (k1 & v1 & A & B).
    exists k1, v1. split; auto. rewrite Ext; auto.
    eapply cids_in; [eapply nth_error_In; exact Hj|]. apply (in_map snd) in Hl. exact Hl.
Qed.

(** ** Enumeration *)

Lemma walk_ok (h : heap) : forall l p fuel, length l < fuel -> chain (nodes _ _ h) p l ->
  walk K V fuel h p = Some (map snd l).
Proof.
  induction l as [|[n c] l IH]; intros p fuel L C; simpl in *.
  - subst. destruct fuel; reflexivity.
  - destruct C as (-> & nx & E & C). destruct fuel as [|fuel]; [lia|]. simpl. rewrite E.
    rewrite (IH nx fuel) by (auto; lia). reflexivity.
Qed.

Lemma cells_of_ok (h : heap) : forall bs ls acc, Forall2 (chain (nodes _ _ h)) bs ls ->
  (forall l, In l ls -> length l < S (nnode _ _ h)) ->
  cells_of K V h bs acc = Some (rev (map snd (concat ls)) ++ acc).
Proof.
  intros bs ls acc F. revert acc. induction F as [|p l bs ls C F IH]; intros acc L; [reflexivity|].
  cbn [cells_of concat]. rewrite (walk_ok h l p) by (auto with datatypes).
  rewrite IH by (auto with datatypes). rewrite map_app, rev_app_distr, <- app_assoc. reflexivity.
Qed.

Lemma cells_of_tab (h : heap) t ls : shape h (buckets t) ls ->
  cells_of K V h (buckets t) [] = Some (rev (cids ls)).
Proof.
  intros S. rewrite (cells_of_ok h _ ls); [now rewrite app_nil_r|apply S|].
  intros l I. assert (X := chain_fuel _ _ _ _ S I). lia.
Qed.

(** ** Rehashing *)

Lemma rehash_ok : forall cs (h : heap) t ls, shape h (buckets t) ls -> 0 < length (buckets t) ->
  placed h (length (buckets t)) ls ->
  (forall c, In c cs -> cells _ _ h c <> None) ->
  exists h' t' ls', rehash K V hash h t cs = Some (h', t') /\
    shape h' (buckets t') ls' /\ placed h' (length (buckets t')) ls' /\
    length (buckets t') = length (buckets t) /\ count t' = count t /\
    cells _ _ h' = cells _ _ h /\ ncell _ _ h' = ncell _ _ h /\ nnode _ _ h <= nnode _ _ h' /\
    (forall n, n < nnode _ _ h -> nodes _ _ h' n = nodes _ _ h n) /\
    Permutation (cids ls') (cids ls ++ cs) /\
    (forall n, In n (nids ls') -> In n (nids ls) \/ nnode _ _ h <= n).
Proof.
  induction cs as [|c cs IH]; intros h t ls S L P A.
  - exists h, t, ls. rewrite app_nil_r. simpl. repeat (split; auto).
  - simpl. destruct (cells _ _ h c) as [[k v]|] eqn:Ec; [|exfalso; eapply A; [left; eauto|auto]].
    destruct (push_ok h t ls k c S L) as (h1 & t1 & l & Ep & El & S1 & L1 & N1 & C1 & NC1 & NN1 & ND1 & PM).
    rewrite Ep.
    assert (P1 : placed h1 (length (buckets t1)) (upd (kindex K hash k t) ((nnode _ _ h, c) :: l) ls)).
    { rewrite L1. apply (placed_push h h1 _ ls _ l _ c k v); auto; congruence. }
    destruct (IH h1 t1 _ S1 ltac:(lia) P1) as (h2 & t2 & ls2 & Er & S2 & P2 & L2 & N2 & C2 & NC2 & NN2 & ND2 & PM2 & FR).
    { intros c' I. rewrite C1. apply A. simpl. auto. }
    exists h2, t2, ls2. split; auto. split; auto. split; auto. split; [congruence|]. split; [congruence|].
    split; [congruence|]. split; [congruence|]. split; [lia|]. split.
    { intros n Hn. rewrite ND2 by lia. apply ND1. lia. }
    split.
    { rewrite PM2. unfold cids. rewrite (Permutation_map snd PM). simpl.
      apply Permutation_middle. }
    intros n I. apply FR in I. destruct I as [I|I]; [|right; lia].
    unfold nids in I. eapply Permutation_in in I; [|apply Permutation_map, PM]. simpl in I.
    destruct I as [<-|I]; auto.
Qed.

Lemma Forall2_repeat_nil nd n : Forall2 (chain nd) (repeat None n) (repeat [] n).
Proof. induction n; simpl; constructor; auto. reflexivity. Qed.

Lemma concat_repeat_nil {A} n : concat (repeat (@nil A) n) = [].
Proof. induction n; simpl; auto. Qed.

Lemma nth_repeat_in {A} (x : A) n i y : nth_error (repeat x n) i = Some y -> y = x.
Proof. intros H. apply nth_error_In, repeat_spec in H. auto. Qed.

(** A table that satisfies everything but possibly the size bound of its
    buckets. *)
Lemma adjust_ok h t ls m n2 : tab_ok h t ls m ->
  (0 <= n2 <= 4611686018427388039)%Z ->
  exists h' t' ls', adjust _ _ hash h t n2 = Some (h', t') /\ tab_ok h' t' ls' m /\ frame h h' ls ls'.
Proof.
  intros T B. unfold adjust, make_table.
  destruct (alloc_for_ok (Z.to_N n2) ltac:(lia)) as (a & Ea & Pa & _). rewrite Ea.
  rewrite (cells_of_tab h t ls) by apply T.
  set (t2 := mktable (repeat None (N.to_nat a)) 0).
  assert (Len : length (buckets t2) = N.to_nat a) by (simpl; apply repeat_length).
  assert (S2 : shape h (buckets t2) (repeat [] (N.to_nat a))).
  { split; [apply Forall2_repeat_nil|]. unfold nids. rewrite concat_repeat_nil. split; [constructor|simpl; tauto]. }
  destruct (rehash_ok (rev (cids ls)) h t2 _ S2 ltac:(lia)) as
    (h' & t' & ls' & Er & S' & P' & L' & N' & C' & NC' & NN' & ND' & PM & FR).
  { intros i l n c H I. apply nth_repeat_in in H. subst. destruct I. }
  { intros c I. rewrite <- in_rev in I. unfold cids in I. apply in_map_iff in I. destruct I as ([n c'] & X & I).
    simpl in X; subst. apply in_concat_nth in I. destruct I as (i & l & Hi & Hl).
    destruct (ok_placed _ _ _ _ T _ _ _ _ Hi Hl) as (k & v & E & _). congruence. }
  rewrite Er. unfold cids in PM at 2. rewrite concat_repeat_nil in PM. simpl in PM.
  assert (PM' : Permutation (cids ls') (cids ls)) by (rewrite PM; symmetry; apply Permutation_rev).
  eexists _, _, ls'. split; [reflexivity|]. split.
  - constructor; cbn [buckets count]; auto.
    + eapply Permutation_NoDup; [symmetry; exact PM'|apply T].
    + intros c I. rewrite NC'. apply (ok_cbound _ _ _ _ T). eapply Permutation_in; eauto.
    + unfold holds. rewrite C'. rewrite (Permutation_map _ PM'). apply T.
    + apply T.
    + apply T.
    + lia.
  - constructor; try lia.
    + intros n Hn _. auto.
    + intros c Hc _. now rewrite C'.
    + intros n I. apply FR in I. destruct I as [I|I]; [|auto]. unfold nids in I. rewrite concat_repeat_nil in I. destruct I.
    + intros c I. left. eapply Permutation_in; eauto.
Qed.

Lemma frame_count h t ls m z : tab_ok h t ls m -> z = Z.of_nat (length m) -> tab_ok h (mktable (buckets t) z) ls m.
Proof. intros [a b c d e f g i] ->. constructor; auto. Qed.

(** ** Insertion *)

Definition size_ok (n : nat) : Prop := (Z.of_nat n <= 4611686018427388039)%Z.

Lemma insert_ok h t ls m k v : tab_ok h t ls m -> aget K V equiv m k = None -> size_ok (S (length m)) ->
  exists h' t' ls' c, insert _ _ hash h t k v = Some (h', t', c) /\ tab_ok h' t' ls' ((k, v) :: m) /\
    frame h h' ls ls' /\ In c (cids ls') /\ cells _ _ h' c = Some (k, v).
Proof.
  intros T A SZ. unfold insert. cbn [new_cell].
  set (h1 := mkheap K V (fset (cells K V h) (ncell K V h) (k, v)) (S (ncell K V h)) (nodes K V h) (nnode K V h)).
  set (c := ncell K V h).
  assert (C1 : cells _ _ h1 c = Some (k, v)) by (simpl; unfold fset; now rewrite Nat.eqb_refl).
  assert (CX : forall c', In c' (cids ls) -> cells _ _ h1 c' = cells _ _ h c').
  { intros c' I. simpl. unfold fset. assert (X := ok_cbound _ _ _ _ T c' I). unfold c in *.
    destruct (Nat.eqb_spec c' (ncell K V h)); auto; lia. }
  destruct (push_ok h1 t ls k c (ok_shape _ _ _ _ T) (ok_alloc _ _ _ _ T)) as
    (h2 & t2 & l & Ep & El & S2 & L2 & N2 & CC2 & NC2 & NN2 & ND2 & PM).
  rewrite Ep. set (ls2 := upd (kindex K hash k t) ((nnode K V h1, c) :: l) ls) in *.
  assert (PC : Permutation (cids ls2) (c :: cids ls)).
  { unfold cids. exact (Permutation_map snd PM). }
  assert (CB : ~ In c (cids ls)) by (intros I; assert (X := ok_cbound _ _ _ _ T c I); unfold c in X; lia).
  assert (T2 : tab_ok h2 (mktable (buckets t2) (count t2 + 1)) ls2 ((k, v) :: m)).
  { constructor; cbn [buckets count]; auto.
    - eapply Permutation_NoDup; [symmetry; exact PC|]. constructor; [auto|apply T].
    - intros c' I. eapply Permutation_in in I; [|exact PC]. rewrite NC2. unfold h1; cbn [ncell].
      destruct I as [<-|I]; [unfold c; lia|]. assert (X := ok_cbound _ _ _ _ T c' I). lia.
    - rewrite L2. apply (placed_push h h2 _ ls _ l _ c k v); auto; try congruence; [apply T|].
      intros c' I. rewrite CC2. auto.
    - unfold holds. rewrite (Permutation_map _ PC), CC2. cbn [map]. rewrite C1. constructor.
      erewrite map_ext_in; [apply T|]. auto.
    - constructor; [|apply T]. rewrite Forall_forall. intros [k' v'] I. cbn [fst]. rewrite equiv_sym.
      eapply aget_none_inv; eauto.
    - rewrite N2, (ok_count _ _ _ _ T). cbn [length]. lia.
    - rewrite L2. apply T. }
  assert (F2 : frame h h2 ls ls2).
  { constructor.
    - intros n Hn _. rewrite ND2; [reflexivity|]. simpl. lia.
    - intros c' Hc _. rewrite CC2. simpl. unfold fset. destruct (Nat.eqb_spec c' (ncell K V h)); auto; lia.
    - rewrite NN2. simpl. lia.
    - rewrite NC2. simpl. lia.
    - intros n I. unfold nids in I. eapply Permutation_in in I; [|apply Permutation_map, PM]. simpl in I.
      destruct I as [<-|I]; [right; simpl; lia|auto].
    - intros c' I. eapply Permutation_in in I; [|exact PC]. destruct I as [<-|I]; [right; unfold c; lia|auto]. }
  unfold incr_size.
  destruct ((count t2 + 1 >? Z.of_nat (length (buckets t2)))%Z) eqn:G.
  - destruct (adjust_ok _ _ _ _ (count t2 + 1) T2) as (h3 & t3 & ls3 & E3 & T3 & F3).
    { pose proof (ok_count _ _ _ _ T2) as Y. cbn [count length] in Y. unfold size_ok in SZ. lia. }
    rewrite E3. exists h3, t3, ls3, c. split; auto. split; auto. split; [eapply frame_trans; eauto|].
    (* rehashing keeps every cell *)
    assert (X : In (Some (k, v)) (map (cells _ _ h3) (cids ls3))).
    { eapply Permutation_in; [symmetry; apply T3|]. left. reflexivity. }
    unfold adjust in E3. destruct (make_table _) as [tt|] eqn:MT; [|discriminate].
    unfold make_table in MT. destruct (alloc_for _) as [a|] eqn:Ea; [|discriminate]. inversion MT; subst tt; clear MT.
    rewrite (cells_of_tab h2 (mktable (buckets t2) (count t2 + 1)) ls2) in E3 by apply T2.
    destruct (rehash _ _ _ _ _ _) as [[h4 t4]|] eqn:E4; [|discriminate]. inversion E3; subst h4.
    assert (Pa : (0 < a)%N).
    { unfold alloc_for in Ea. apply find_some in Ea. destruct Ea as [Ea _].
      assert (P : Forall (fun b => (0 < b)%N) bucket_sizes) by (unfold bucket_sizes; repeat constructor).
      rewrite Forall_forall in P. auto. }
    assert (S5 : shape h2 (repeat None (N.to_nat a)) (repeat [] (N.to_nat a))).
    { split; [apply Forall2_repeat_nil|]. unfold nids. rewrite concat_repeat_nil. split; [constructor|simpl; tauto]. }
    destruct (rehash_ok (rev (cids ls2)) h2 (mktable (repeat None (N.to_nat a)) 0) _ S5) as
      (h' & t' & ls' & Er & S' & P' & L' & N' & C' & NC' & NN' & ND' & PM' & FR).
    { cbn [buckets]. rewrite repeat_length. lia. }
    { intros i l0 n0 c0 H I. apply nth_repeat_in in H. subst. destruct I. }
    { intros c0 I. rewrite <- in_rev in I. unfold cids in I. apply in_map_iff in I. destruct I as ([n0 c'] & X0 & I).
      simpl in X0; subst. apply in_concat_nth in I. destruct I as (i & l0 & Hi & Hl).
      destruct (ok_placed _ _ _ _ T2 _ _ _ _ Hi Hl) as (k0 & v0 & E & _). congruence. }
    cbn [buckets] in Er. rewrite Er in E4. inversion E4; subst h' t'.
    assert (C3 : cells _ _ h3 c = Some (k, v)) by (rewrite C', CC2; exact C1).
    split; auto.
    apply in_map_iff in X. destruct X as (c0 & Ec0 & Ic0).
    (* the only cell with this key in the new table is c *)
    assert (H0 : In c0 (cids ls2)).
    { destruct (fr_cids _ _ _ _ F3 c0 Ic0) as [I|I]; auto. exfalso. 
      assert (Y := ok_cbound _ _ _ _ T3 c0 Ic0). rewrite NC' in Y. lia. }
    eapply Permutation_in in H0; [|exact PC]. destruct H0 as [->|H0]; auto. exfalso.
    assert (Y : cells _ _ h c0 = Some (k, v)).
    { rewrite <- CX by auto. rewrite <- CC2, <- C'. exact Ec0. }
    assert (Z := holds_in _ _ _ _ _ (ok_holds _ _ _ _ T) H0 Y).
    rewrite (aget_in m k k v) in A; [discriminate|apply T|auto|apply equiv_refl].
  - exists h2, (mktable (buckets t2) (count t2 + 1)), ls2, c. split; auto. split; auto. split; auto.
    split; [|rewrite CC2; exact C1]. eapply Permutation_in; [symmetry; exact PC|left; reflexivity].
Qed.

Lemma aset_new m k v : aget K V equiv m k = None -> aset K V equiv m k v = (k, v) :: m.
Proof. intros H. unfold aset. now rewrite H. Qed.

Lemma aset_after_insert m k v : aget K V equiv m k = None -> aset K V equiv ((k, v) :: m) k v = (k, v) :: m.
Proof.
  intros H. unfold aset. simpl. rewrite equiv_refl. f_equal.
  rewrite <- (map_id m) at 2. apply map_ext_in. intros [a b] I. simpl.
  now rewrite (aget_none_inv _ _ H _ _ I).
Qed.

Lemma ht_set_ok h t ls m k v : tab_ok h t ls m -> size_ok (S (length m)) ->
  exists h' t' ls', ht_set _ _ hash equiv h t k v = Some (h', t') /\
    tab_ok h' t' ls' (aset K V equiv m k v) /\ frame h h' ls ls'.
Proof.
  intros T SZ. unfold ht_set.
  destruct (cell_ref_ok _ _ _ _ k T) as [(c & k' & v' & A & B & C & D & E)|(A & E)]; rewrite A.
  - destruct (set_cell_ok h t ls m c k' v' k v T B C D) as (h' & F & G & I). rewrite F.
    exists h', t, ls. auto.
  - destruct (insert_ok _ _ _ _ k v T E SZ) as (h1 & t1 & ls1 & c & F & G & I & J & L). rewrite F.
    destruct (set_cell_ok h1 t1 ls1 _ c k v k v G J L (equiv_refl k)) as (h2 & F2 & G2 & I2). rewrite F2.
    exists h2, t1, ls1. split; auto. rewrite aset_after_insert in G2 by auto. rewrite aset_new by auto.
    split; auto. eapply frame_trans; eauto.
Qed.

Lemma ht_update_ok h t ls m k f d : tab_ok h t ls m -> size_ok (S (length m)) ->
  match aget K V equiv m k, d with
  | None, None => ht_update _ _ hash equiv h t k f d = Some (inr tt)
  | Some v, _ | None, Some v =>
      exists h' t' ls', ht_update _ _ hash equiv h t k f d = Some (inl (h', t')) /\
        tab_ok h' t' ls' (aset K V equiv m k (f v)) /\ frame h h' ls ls'
  end.
Proof.
  intros T SZ. unfold ht_update.
  destruct (cell_ref_ok _ _ _ _ k T) as [(c & k' & v' & A & B & C & D & E)|(A & E)]; rewrite A, E.
  - rewrite C. destruct (set_cell_ok h t ls m c k' v' k (f v') T B C D) as (h' & F & G & I). rewrite F.
    exists h', t, ls. auto.
  - destruct d as [v|]; [|reflexivity].
    destruct (insert_ok _ _ _ _ k (f v) T E SZ) as (h1 & t1 & ls1 & c & F & G & I & J & L). rewrite F.
    exists h1, t1, ls1. rewrite aset_new by auto. auto.
Qed.

(** ** Deletion *)

Lemma chain_app_tail nd : forall l1 p n c l2, chain nd p (l1 ++ (n, c) :: l2) ->
  exists nx, nd n = Some (c, nx) /\ chain nd nx l2.
Proof.
  induction l1 as [|[m d] l1 IH]; intros p n c l2 C; simpl in C.
  - destruct C as (_ & nx & E & C). eauto.
  - destruct C as (_ & nx & E & C). eauto.
Qed.

(** Unlinking: redirecting the last pair of [l1]. *)
Lemma chain_unlink nd nd' pn pc n c nx : forall l1 p l2,
  chain nd p (l1 ++ (pn, pc) :: (n, c) :: l2) -> NoDup (map fst (l1 ++ (pn, pc) :: (n, c) :: l2)) ->
  nd n = Some (c, nx) -> nd' pn = Some (pc, nx) -> (forall m, m <> pn -> nd' m = nd m) ->
  chain nd' p (l1 ++ (pn, pc) :: l2).
Proof.
  induction l1 as [|[m d] l1 IH]; intros p l2 C N En Ep Ext; simpl in *.
  - destruct C as (-> & nx1 & E1 & -> & nx2 & E2 & C). split; auto. exists nx. split; auto.
    rewrite En in E2. inversion E2; subst nx2. eapply chain_ext; [|exact C].
    intros m Hm. apply Ext. intros ->. inversion N as [|? ? N1 N2]; subst. apply N1. simpl. auto.
  - destruct C as (-> & nx1 & E1 & C). inversion N as [|? ? N1 N2]; subst. split; auto. exists nx1.
    split; [|eapply IH; eauto]. rewrite Ext; auto. intros ->. apply N1. rewrite map_app. apply in_or_app.
    right. left. reflexivity.
Qed.

Lemma del_loop_ok h k hd : forall l2 l1 p prev fuel,
  length l2 < fuel -> chain (nodes _ _ h) hd (l1 ++ l2) -> chain (nodes _ _ h) p l2 ->
  cells_ok h (l1 ++ l2) -> NoDup (map fst (l1 ++ l2)) ->
  match prev with
  | None => l1 = [] /\ hd = p
  | Some pn => exists l0 pc, l1 = l0 ++ [(pn, pc)]
  end ->
  (forall n c k' v, In (n, c) l1 -> cells _ _ h c = Some (k', v) -> equiv k' k = false) ->
  (exists l1' n c l2' k' v h' hd', l1 ++ l2 = l1' ++ (n, c) :: l2' /\
     cells _ _ h c = Some (k', v) /\ equiv k' k = true /\
     del_loop _ _ equiv fuel h hd p prev k = Some (inl (h', hd')) /\
     chain (nodes _ _ h') hd' (l1' ++ l2') /\
     cells _ _ h' = cells _ _ h /\ ncell _ _ h' = ncell _ _ h /\ nnode _ _ h' = nnode _ _ h /\
     (forall m, ~ In m (map fst l1') -> nodes _ _ h' m = nodes _ _ h m)) \/
  ((forall n c k' v, In (n, c) (l1 ++ l2) -> cells _ _ h c = Some (k', v) -> equiv k' k = false) /\
     del_loop _ _ equiv fuel h hd p prev k = Some (inr tt)).
Proof.
  induction l2 as [|[n c] l2 IH]; intros l1 p prev fuel L C1 C2 O ND PV NM.
  - right. simpl in C2. subst p. rewrite app_nil_r in *. split; auto. destruct fuel; reflexivity.
  - simpl in C2. destruct C2 as (-> & nx & E & C2). destruct fuel as [|fuel]; [simpl in L; lia|].
    simpl. rewrite E.
    destruct (cells _ _ h c) as [[k' v]|] eqn:Ec;
      [|exfalso; eapply O; [apply in_or_app; right; left; reflexivity|exact Ec]].
    destruct (equiv k' k) eqn:Q.
    + left. destruct prev as [pn|].
      * destruct PV as (l0 & pc & ->). rewrite <- app_assoc in C1, ND. simpl in C1, ND.
        assert (EP : exists px, nodes _ _ h pn = Some (pc, px)).
        { destruct (chain_app_tail _ _ _ _ _ _ C1) as (px & X & _). eauto. }
        destruct EP as (px & EP). unfold set_next. rewrite EP.
        exists (l0 ++ [(pn, pc)]), n, c, l2, k', v. eexists _, hd. split; auto. split; auto. split; auto. split; [reflexivity|].
        cbn [cells ncell nnode nodes]. split; [|repeat split; auto].
        -- rewrite <- app_assoc. simpl. eapply chain_unlink; eauto.
           ++ unfold fset. now rewrite Nat.eqb_refl.
           ++ intros m Hm. unfold fset. destruct (Nat.eqb_spec m pn); congruence.
        -- intros m Hm. unfold fset. destruct (Nat.eqb_spec m pn) as [->|]; auto. exfalso. apply Hm.
           rewrite map_app. apply in_or_app. right. left. reflexivity.
      * destruct PV as (-> & ->). exists [], n, c, l2, k', v, h, nx. simpl. repeat split; auto.
    + destruct (IH (l1 ++ [(n, c)]) nx (Some n) fuel) as [X|X].
      * simpl in L. lia.
      * rewrite <- app_assoc. exact C1.
      * exact C2.
      * rewrite <- app_assoc. exact O.
      * rewrite <- app_assoc. exact ND.
      * eauto.
      * intros n0 c0 k0 v0 I J. apply in_app_or in I. destruct I as [I|[I|[]]]; [eauto|].
        inversion I; subst. congruence.
      * left. rewrite <- app_assoc in X. exact X.
      * right. rewrite <- app_assoc in X. exact X.
Qed.

Lemma adel_none m k : aget K V equiv m k = None -> adel K V equiv m k = m.
Proof.
  intros H. unfold adel. assert (A := aget_none_inv _ _ H).
  clear H. induction m as [|[a b] m IH]; simpl; auto. rewrite (A a b) by (left; auto). simpl. f_equal. apply IH.
  intros; eapply A; right; eauto.
Qed.

Lemma adel_cons m k0 v0 k : distinct ((k0, v0) :: m) -> equiv k0 k = true -> adel K V equiv ((k0, v0) :: m) k = m.
Proof.
  intros D Q. unfold adel. simpl. rewrite Q. simpl.
  inversion D as [|? ? D1 D2]; subst. rewrite Forall_forall in D1.
  assert (A : forall a b, In (a, b) m -> equiv a k = false).
  { intros a b I. specialize (D1 _ I). simpl in D1. destruct (equiv a k) eqn:E; auto.
    rewrite (equiv_trans k0 k a) in D1; auto. now rewrite equiv_sym. }
  clear -A. induction m as [|[a b] m IH]; simpl; auto. rewrite (A a b) by (left; auto). simpl. f_equal.
  apply IH. intros; eapply A; right; eauto.
Qed.

Lemma adel_perm m m' k : Permutation m m' -> Permutation (adel K V equiv m k) (adel K V equiv m' k).
Proof.
  intros P. unfold adel. induction P; simpl; auto.
  - destruct (negb _); auto.
  - destruct (negb (equiv (fst y) k)), (negb (equiv (fst x) k)); auto. apply perm_swap.
  - eapply Permutation_trans; eauto.
Qed.

Lemma distinct_filter f m : distinct m -> distinct (filter f m).
Proof.
  intros D. induction D as [|a m D1 D2 IH]; simpl; [constructor|]. destruct (f a); auto. constructor; auto.
  rewrite Forall_forall in *. intros y I. apply filter_In in I. apply D1. tauto.
Qed.

Lemma ht_delete_ok h t ls m k : tab_ok h t ls m -> size_ok (length m) ->
  exists h' t' ls', ht_delete _ _ hash equiv h t k = Some (h', t') /\
    tab_ok h' t' ls' (adel K V equiv m k) /\ frame h h' ls ls'.
Proof.
  intros T SZ. destruct (bucket_of _ _ _ _ k T) as (p & l & Ep & El & C & O & L).
  unfold ht_delete. rewrite Ep.
  destruct (ok_shape _ _ _ _ T) as (S1 & S2 & S3).
  destruct (nth_split_at _ _ _ El) as (la & lb & Els & Hla & Hupd).
  assert (ND : NoDup (map fst l)).
  { rewrite Els in S2. unfold nids in S2. rewrite concat_app in S2. simpl in S2. rewrite !map_app in S2.
    apply NoDup_app_remove_l in S2. apply NoDup_app_remove_r in S2. exact S2. }
  destruct (del_loop_ok h k p l [] p None (S (nnode _ _ h)) L C C O ND (conj eq_refl eq_refl)
    (fun _ _ _ _ I => match I with end)) as
    [(l1 & n & c & l2 & k' & v & h' & p' & E & Ec & Q & D & C' & CC & NC & NN & NX)|(A & D)].
  - simpl in E. subst l. rewrite D.
    set (i := kindex K hash k t) in *.
    set (ls' := upd i (l1 ++ l2) ls).
    assert (PM : Permutation (concat ls) ((n, c) :: concat ls')).
    { unfold ls'. rewrite Hupd, Els, !concat_app. simpl.
      rewrite <- !app_assoc. simpl. rewrite Permutation_middle. rewrite !app_assoc.
      symmetry. rewrite <- !app_assoc. simpl.
      rewrite !app_assoc. apply Permutation_middle || reflexivity. }
    assert (NDn : NoDup (n :: nids ls')).
    { unfold nids. change (n :: map fst (concat ls')) with (map fst ((n, c) :: concat ls')).
      eapply Permutation_NoDup; [apply Permutation_map, PM|exact S2]. }
    assert (NDc : NoDup (c :: cids ls')).
    { unfold cids. change (c :: map snd (concat ls')) with (map snd ((n, c) :: concat ls')).
      eapply Permutation_NoDup; [apply Permutation_map, PM|apply T]. }
    assert (IN : forall x, In x (nids ls') -> In x (nids ls)).
    { intros x I. unfold nids. eapply Permutation_in; [symmetry; apply Permutation_map, PM|]. right. exact I. }
    assert (IC : forall x, In x (cids ls') -> In x (cids ls)).
    { intros x I. unfold cids. eapply Permutation_in; [symmetry; apply Permutation_map, PM|]. right. exact I. }
    (* spine pairs of the other buckets are not in l1 *)
    assert (OTH : forall j l0 m0, j <> i -> nth_error ls j = Some l0 -> In m0 (map fst l0) -> ~ In m0 (map fst l1)).
    { intros j l0 m0 Hj Hl Im Il.
      rewrite Els in S2. unfold nids in S2. rewrite concat_app in S2. simpl in S2. rewrite !map_app in S2.
      assert (X : In l0 la \/ In l0 lb).
      { rewrite Els in Hl. destruct (Nat.lt_ge_cases j (length la)) as [LT|GE].
        - rewrite nth_error_app1 in Hl by auto. left. eapply nth_error_In; eauto.
        - rewrite nth_error_app2 in Hl by auto. destruct (j - length la) as [|q] eqn:Eq; [lia|].
          simpl in Hl. right. eapply nth_error_In; eauto. }
      destruct X as [X|X].
      - assert (Y : In m0 (map fst (concat la))) by (eapply nids_in; eauto).
        clear -S2 Y Il. apply in_split in Y. destruct Y as (a & b & Y). rewrite Y in S2.
        rewrite <- app_assoc in S2. simpl in S2. apply NoDup_remove_2 in S2. apply S2.
        apply in_or_app. right. apply in_or_app. right. rewrite <- !app_assoc. apply in_or_app. left. exact Il.
      - assert (Y : In m0 (map fst (concat lb))) by (eapply nids_in; eauto).
        apply NoDup_app_remove_l in S2. clear -S2 Y Il. apply in_split in Il. destruct Il as (a & b & Il). rewrite Il in S2.
        rewrite <- !app_assoc in S2. simpl in S2. apply NoDup_remove_2 in S2. apply S2.
        apply in_or_app. right. apply in_or_app. right. right. apply in_or_app. right. exact Y. }
    assert (S' : shape h' (upd i p' (buckets t)) ls').
    { split; [|split].
      - unfold ls'. clear -Els Hla Hupd Ep El C' NX OTH S1.
        assert (H : forall j p0, nth_error (upd i p' (buckets t)) j = Some p0 ->
                    exists l0, nth_error (upd i (l1 ++ l2) ls) j = Some l0 /\ chain (nodes _ _ h') p0 l0).
        { intros j p0 Hj. assert (LE : length (buckets t) = length ls) by (eapply Forall2_len; eauto).
          destruct (Nat.eq_dec i j) as [<-|N].
          - rewrite nth_upd_eq in Hj by (apply nth_error_Some; congruence). inversion Hj; subst.
            exists (l1 ++ l2). split; auto. apply nth_upd_eq. apply nth_error_Some. congruence.
          - rewrite nth_upd_ne in Hj by auto. destruct (Forall2_nth _ _ _ _ _ S1 Hj) as (l0 & Hl & Cl).
            exists l0. split; [rewrite nth_upd_ne; auto|]. eapply chain_ext; [|exact Cl].
            intros m0 Im. apply NX. eapply OTH; eauto. }
        assert (LL : length (upd i p' (buckets t)) = length (upd i (l1 ++ l2) ls)).
        { rewrite !upd_length. eapply Forall2_len; eauto. }
        clear -H LL. revert H LL. generalize (upd i p' (buckets t)) (upd i (l1 ++ l2) ls).
        intros bs. induction bs as [|b bs IH]; intros [|y ys] H LL; simpl in LL; try discriminate; constructor.
        + destruct (H 0 b eq_refl) as (l0 & E & X). inversion E; subst. auto.
        + apply IH; auto. intros j p0 Hj. apply (H (S j) p0 Hj).
      - inversion NDn; auto.
      - intros x I. rewrite NN. apply S3. auto. }
    assert (HM : Permutation (map (cells _ _ h) (cids ls')) (map Some (adel K V equiv m k))).
    { assert (X : Permutation (map Some m) (map (cells _ _ h) (c :: cids ls'))).
      { rewrite <- (ok_holds _ _ _ _ T). apply Permutation_map. unfold cids. exact (Permutation_map snd PM). }
      simpl in X. rewrite Ec in X. apply Permutation_sym in X.
      destruct (Permutation_map_inv _ _ X) as (m' & Em & Pm). destruct m' as [|x m']; [discriminate|].
      simpl in Em. inversion Em; subst x. rewrite H1.
      apply Permutation_map. rewrite (adel_perm _ _ k Pm). rewrite adel_cons; auto.
      eapply distinct_perm; [exact Pm|]. apply T. }
    assert (LM : length m = S (length (adel K V equiv m k))).
    { assert (X := Permutation_length HM). rewrite !map_length in X.
      assert (Y := Permutation_length (ok_holds _ _ _ _ T)). rewrite !map_length in Y.
      rewrite <- X, <- Y. unfold cids. rewrite !map_length. rewrite (Permutation_length PM). reflexivity. }
    assert (T' : tab_ok h' (mktable (upd i p' (buckets t)) (count t - 1)) ls' (adel K V equiv m k)).
    { constructor; cbn [buckets count]; auto.
      - inversion NDc; auto.
      - intros x I. rewrite NC. apply (ok_cbound _ _ _ _ T). auto.
      - rewrite upd_length. intros j l0 n0 c0 Hj Hl. rewrite CC.
        unfold ls' in Hj. destruct (Nat.eq_dec i j) as [<-|N].
        + rewrite nth_upd_eq in Hj by (apply nth_error_Some; congruence). inversion Hj; subst l0.
          apply (ok_placed _ _ _ _ T i _ n0 c0 El). apply in_or_app. apply in_app_or in Hl. simpl. tauto.
        + rewrite nth_upd_ne in Hj by auto. apply (ok_placed _ _ _ _ T j _ n0 c0 Hj Hl).
      - unfold holds. rewrite CC. exact HM.
      - apply distinct_filter, T.
      - rewrite (ok_count _ _ _ _ T). lia.
      - rewrite upd_length. apply T. }
    assert (F' : frame h h' ls ls').
    { constructor; try lia.
      - intros x Hx N. apply NX. intros I. apply N. eapply nids_in; [eapply nth_error_In; exact El|].
        rewrite map_app. apply in_or_app. auto.
      - intros x Hx N. now rewrite CC.
      - auto.
      - auto. }
    unfold decr_size. cbn [buckets count].
    destruct ((_ && _)%bool) eqn:G.
    + destruct (adjust_ok _ _ _ _ (count t - 1) T') as (h3 & t3 & ls3 & E3 & T3 & F3).
      { rewrite (ok_count _ _ _ _ T). unfold size_ok in SZ. lia. }
      exists h3, t3, ls3. split; auto. split; auto. eapply frame_trans; eauto.
    + eexists _, _, ls'. split; [reflexivity|]. auto.
  - rewrite D. exists h, t, ls. split; auto. split; [|apply frame_refl].
    rewrite adel_none; auto. destruct (cell_ref_ok _ _ _ _ k T) as [(c & k' & v' & A1 & B1 & C1 & D1 & E1)|(A1 & E1)]; auto.
    exfalso. destruct (right_bucket _ _ _ _ _ _ _ _ _ T B1 C1 D1 El) as (n & I).
    simpl in A. rewrite (A n c k' v' I C1) in D1. discriminate.
Qed.

(** ** Copying *)

Lemma copy_bucket_ok : forall cs (h : heap), (forall c, In c cs -> cells _ _ h c <> None) ->
  (forall c, In c cs -> c < ncell _ _ h) ->
  exists h' p' l', copy_bucket K V h cs = Some (h', p') /\ chain (nodes _ _ h') p' l' /\
    NoDup (map fst l') /\ NoDup (map snd l') /\
    (forall n, In n (map fst l') -> nnode _ _ h <= n < nnode _ _ h') /\
    (forall c, In c (map snd l') -> ncell _ _ h <= c < ncell _ _ h') /\
    nnode _ _ h <= nnode _ _ h' /\ ncell _ _ h <= ncell _ _ h' /\
    (forall n, n < nnode _ _ h -> nodes _ _ h' n = nodes _ _ h n) /\
    (forall c, c < ncell _ _ h -> cells _ _ h' c = cells _ _ h c) /\
    map (cells _ _ h') (map snd l') = map (cells _ _ h) cs.
Proof.
  induction cs as [|c cs IH]; intros h A B.
  - exists h, None, []. simpl. repeat split; auto; try constructor; tauto.
  - simpl. destruct (cells _ _ h c) as [[k v]|] eqn:Ec; [|exfalso; eapply A; [left; eauto|auto]].
    destruct (IH h) as (h1 & p1 & l1 & E & C & N1 & N2 & R1 & R2 & L1 & L2 & X1 & X2 & M); auto with datatypes.
    rewrite E. eexists _, _, ((nnode _ _ h1, ncell _ _ h1) :: l1). split; [reflexivity|].
    cbn [cells ncell nnode nodes map fst snd].
    assert (ND : forall n, In n (map fst l1) -> n <> nnode K V h1) by (intros n I; apply R1 in I; lia).
    assert (NC : forall n, In n (map snd l1) -> n <> ncell K V h1) by (intros n I; apply R2 in I; lia).
    split.
    { simpl. split; auto. exists p1. unfold fset at 1. rewrite Nat.eqb_refl. split; auto.
      eapply chain_ext; [|exact C]. intros n I. unfold fset. apply ND in I.
      destruct (Nat.eqb_spec n (nnode K V h1)); congruence. }
    split. { constructor; auto. intros I. apply ND in I. congruence. }
    split. { constructor; auto. intros I. apply NC in I. congruence. }
    split. { intros n [<-|I]; [lia|]. apply R1 in I. lia. }
    split. { intros n [<-|I]; [lia|]. apply R2 in I. lia. }
    split; [lia|]. split; [lia|].
    split. { intros n Hn. unfold fset. destruct (Nat.eqb_spec n (nnode K V h1)); [lia|auto]. }
    split. { intros n Hn. unfold fset. destruct (Nat.eqb_spec n (ncell K V h1)); [lia|auto]. }
    unfold fset at 1. rewrite Nat.eqb_refl. f_equal. rewrite <- M. apply map_ext_in.
    intros x I. unfold fset. apply NC in I. destruct (Nat.eqb_spec x (ncell K V h1)); congruence.
Qed.

Lemma copy_buckets_ok : forall bs ls (h : heap), Forall2 (chain (nodes _ _ h)) bs ls ->
  (forall l, In l ls -> length l <= nnode _ _ h) ->
  (forall n, In n (nids ls) -> n < nnode _ _ h) ->
  (forall c, In c (cids ls) -> cells _ _ h c <> None) ->
  (forall c, In c (cids ls) -> c < ncell _ _ h) ->
  exists h' bs' ls', copy_buckets K V h bs = Some (h', bs') /\ Forall2 (chain (nodes _ _ h')) bs' ls' /\
    NoDup (nids ls') /\ NoDup (cids ls') /\
    (forall n, In n (nids ls') -> nnode _ _ h <= n < nnode _ _ h') /\
    (forall c, In c (cids ls') -> ncell _ _ h <= c < ncell _ _ h') /\
    nnode _ _ h <= nnode _ _ h' /\ ncell _ _ h <= ncell _ _ h' /\
    (forall n, n < nnode _ _ h -> nodes _ _ h' n = nodes _ _ h n) /\
    (forall c, c < ncell _ _ h -> cells _ _ h' c = cells _ _ h c) /\
    Forall2 (fun l l' => map (cells _ _ h') (map snd l') = map (cells _ _ h) (map snd l)) ls ls'.
Proof.
  induction bs as [|p bs IH]; intros ls h F L BN A B.
  - inversion F; subst. exists h, [], []. simpl. repeat split; auto; try constructor; simpl in *; tauto.
  - inversion F as [|? l ? ls0 C F']; subst. simpl.
    fold (walk K V (S (nnode K V h)) h p).
    assert (W : walk K V (S (nnode K V h)) h p = Some (map snd l)).
    { apply walk_ok; auto. assert (X := L l (or_introl eq_refl)). lia. }
    unfold nids, cids in *. simpl in *. rewrite !map_app in *.
    rewrite W.
    destruct (copy_bucket_ok (map snd l) h) as (h1 & p1 & l1 & E & C1 & N1 & N2 & R1 & R2 & L1 & L2 & X1 & X2 & M).
    { intros c I. apply A. apply in_or_app. auto. }
    { intros c I. apply B. apply in_or_app. auto. }
    rewrite E.
    destruct (IH ls0 h1) as (h2 & bs2 & ls2 & E2 & F2 & N3 & N4 & R3 & R4 & L3 & L4 & X3 & X4 & M2).
    { eapply Forall2_impl'; [|exact F']. intros q l0 I C0. eapply chain_ext; [|exact C0].
      intros n Hn. apply X1. apply BN. apply in_or_app. right. eapply nids_in; eauto. }
    { intros l0 I. assert (X := L l0 (or_intror I)). lia. }
    { intros n I. assert (X := BN n (in_or_app _ _ _ (or_intror I))). lia. }
    { intros c I. rewrite X2; [apply A|apply B]; apply in_or_app; auto. }
    { intros c I. assert (X := B c (in_or_app _ _ _ (or_intror I))). lia. }
    rewrite E2. exists h2, (p1 :: bs2), (l1 :: ls2). split; auto.
    simpl. rewrite !map_app.
    assert (DJ : forall (A : Type) (f : A -> nat) (la lb : list A) lo mi hi, NoDup (map f la) -> NoDup (map f lb) ->
      (forall n, In n (map f la) -> lo <= n < mi) -> (forall n, In n (map f lb) -> mi <= n < hi) ->
      NoDup (map f la ++ map f lb)).
    { clear. intros A f la lb lo mi hi Na Nb Ha Hb. induction (map f la) as [|x xs IHx]; simpl; auto.
      inversion Na; subst. constructor.
      - intros I. apply in_app_or in I. destruct I as [I|I]; [tauto|].
        assert (X := Ha x (or_introl eq_refl)). assert (Y := Hb x I). lia.
      - apply IHx; auto. intros n I. apply Ha. right. auto. }
    split. { constructor; auto. eapply chain_ext; [|exact C1]. intros n I. apply X3. apply R1 in I. lia. }
    split. { eapply DJ; eauto. }
    split. { eapply DJ; eauto. }
    split. { intros n I. apply in_app_or in I. destruct I as [I|I]; [apply R1 in I|apply R3 in I]; lia. }
    split. { intros n I. apply in_app_or in I. destruct I as [I|I]; [apply R2 in I|apply R4 in I]; lia. }
    split; [lia|]. split; [lia|].
    split. { intros n Hn. rewrite X3 by lia. auto. }
    split. { intros n Hn. rewrite X4 by lia. auto. }
    constructor.
    + rewrite <- M. apply map_ext_in. intros c I. apply X4. apply R2 in I. lia.
    + assert (BC : forall l0, In l0 ls0 -> forall c, In c (map snd l0) -> cells _ _ h1 c = cells _ _ h c).
      { intros l0 I c Ic. apply X2. apply B. apply in_or_app. right. eapply cids_in; eauto. }
      clear -M2 BC. induction M2 as [|l0 l0' ls0 ls2 H M2 IH]; constructor.
      * rewrite H. apply map_ext_in. eauto with datatypes.
      * apply IH. intros l1 I. apply BC. right. exact I.
Qed.

Lemma tab_cells_some h t ls m c : tab_ok h t ls m -> In c (cids ls) -> cells _ _ h c <> None.
Proof.
  intros T I. unfold cids in I. apply in_map_iff in I. destruct I as ([n c'] & X & I). simpl in X; subst.
  apply in_concat_nth in I. destruct I as (i & l & Hi & Hl).
  destruct (ok_placed _ _ _ _ T _ _ _ _ Hi Hl) as (k & v & E & _). congruence.
Qed.

Lemma ht_copy_ok h t ls m : tab_ok h t ls m ->
  exists h' t' ls', ht_copy K V h t = Some (h', t') /\ tab_ok h' t' ls' m /\ tab_ok h' t ls m /\
    (forall n, In n (nids ls') -> nnode _ _ h <= n) /\ (forall c, In c (cids ls') -> ncell _ _ h <= c) /\
    nnode _ _ h <= nnode _ _ h' /\ ncell _ _ h <= ncell _ _ h' /\
    (forall n, n < nnode _ _ h -> nodes _ _ h' n = nodes _ _ h n) /\
    (forall c, c < ncell _ _ h -> cells _ _ h' c = cells _ _ h c).
Proof.
  intros T. destruct (ok_shape _ _ _ _ T) as (S1 & S2 & S3). unfold ht_copy.
  destruct (copy_buckets_ok (buckets t) ls h S1) as
    (h' & bs' & ls' & E & F & N1 & N2 & R1 & R2 & L1 & L2 & X1 & X2 & M); auto.
  { intros l I. eapply chain_fuel; eauto. apply T. }
  { intros c I. eapply tab_cells_some; eauto. }
  { apply T. }
  rewrite E. eexists h', _, ls'. split; [reflexivity|].
  assert (LB : length bs' = length (buckets t)).
  { rewrite (Forall2_len _ _ _ F), (Forall2_len _ _ _ S1). symmetry. eapply Forall2_len; eauto. }
  split; [|split; [|split; [|split; [|repeat split; auto]]]].
  - constructor; cbn [buckets count]; auto.
    + split; [auto|split; auto]. intros n I. apply R1 in I. lia.
    + intros c I. apply R2 in I. lia.
    + rewrite LB. intros i l' n c Hi Hl. destruct (Forall2_nth_r _ _ _ _ _ M Hi) as (l & Hi' & Em).
      assert (I : In (cells _ _ h' c) (map (cells _ _ h') (map snd l'))).
      { apply in_map. apply (in_map snd) in Hl. exact Hl. }
      rewrite Em in I. rewrite map_map in I. apply in_map_iff in I. destruct I as ([n0 c0] & Ec & Ic).
      destruct (ok_placed _ _ _ _ T _ _ _ _ Hi' Ic) as (k & v & E1 & P). simpl in Ec.
      exists k, v. split; auto. congruence.
    + unfold holds, cids.
      assert (Q : map (cells _ _ h') (map snd (concat ls')) = map (cells _ _ h) (map snd (concat ls))).
      { clear -M. induction M as [|l l' ls ls' H M IH]; simpl; auto. rewrite !map_app. congruence. }
      rewrite Q. apply T.
    + apply T.
    + apply T.
    + rewrite LB. apply T.
  - eapply tab_ok_ext; eauto.
    intros c I. apply X2. apply (ok_cbound _ _ _ _ T c I).
  - intros n I. apply R1 in I. lia.
  - intros c I. apply R2 in I. lia.
Qed.

(** ** Enumeration of entries *)

Lemma lookups_ok (h : heap) cs l : map (cells _ _ h) cs = map Some l -> lookups K V h cs = Some l.
Proof.
  revert l. induction cs as [|c cs IH]; intros [|x l] H; simpl in *; try discriminate; auto.
  inversion H as [[H1 H2]]. rewrite H1. rewrite (IH l); auto.
Qed.

Lemma ht_entries_ok h t ls m : tab_ok h t ls m ->
  exists l, ht_entries K V h t = Some (map Some l) /\ Permutation l m.
Proof.
  intros T. unfold ht_entries. rewrite (cells_of_tab h t ls) by apply T.
  assert (P : Permutation (map (cells _ _ h) (rev (cids ls))) (map Some m)).
  { rewrite <- (ok_holds _ _ _ _ T). apply Permutation_map. symmetry. apply Permutation_rev. }
  destruct (Permutation_map_inv _ _ P) as (l & E & Q).
  rewrite (lookups_ok h _ l) by (auto; congruence).
  assert (L : length l = length m) by (apply Permutation_length; auto using Permutation_sym).
  rewrite (ok_count _ _ _ _ T). destruct (Z.leb_spec (Z.of_nat (length l)) (Z.of_nat (length m))); [|lia].
  exists l. split; [|auto using Permutation_sym]. f_equal.
  replace (Z.to_nat (Z.of_nat (length m)) - length l) with 0 by lia. simpl. apply app_nil_r.
Qed.

Lemma make_table_ok h : exists t, make_table 0 = Some t /\ tab_ok h t (repeat [] (length (buckets t))) [].
Proof.
  unfold make_table. destruct (alloc_for_ok 0 ltac:(lia)) as (a & Ea & Pa & _). rewrite Ea.
  eexists. split; [reflexivity|]. cbn [buckets]. rewrite repeat_length.
  constructor; cbn [buckets count]; unfold nids, cids; rewrite ?concat_repeat_nil, ?repeat_length; try constructor; try lia.
  - apply Forall2_repeat_nil.
  - unfold nids. rewrite concat_repeat_nil. split; [constructor|simpl; tauto].
  - simpl; tauto.
  - intros i l n c H I. apply nth_repeat_in in H. subst. destruct I.
  - unfold holds, cids. rewrite concat_repeat_nil. constructor.
Qed.

(** ** Worlds *)

Record world_ok (w : world K V) (Ls : list layout) (ms : list (amap K V)) : Prop := mk_world_ok {
  wo_len : length Ls = length (tabs _ _ w);
  wo_mlen : length ms = length (tabs _ _ w);
  wo_tab : forall i t ls m, nth_error (tabs _ _ w) i = Some t -> nth_error Ls i = Some ls ->
             nth_error ms i = Some m -> tab_ok (hp _ _ w) t ls m;
  wo_nsep : forall i j li lj n, nth_error Ls i = Some li -> nth_error Ls j = Some lj ->
             In n (nids li) -> In n (nids lj) -> i = j;
  wo_csep : forall i j li lj c, nth_error Ls i = Some li -> nth_error Ls j = Some lj ->
             In c (cids li) -> In c (cids lj) -> i = j }.

Lemma nth_lt {A} (l : list A) i x : nth_error l i = Some x -> i < length l.
Proof. intros H. apply nth_error_Some. congruence. Qed.

Lemma nth_ex {A} (l : list A) i : i < length l -> exists x, nth_error l i = Some x.
Proof. intros H. apply nth_error_Some in H. destruct (nth_error l i); [eauto|congruence]. Qed.

Lemma world_get w Ls ms i t : world_ok w Ls ms -> nth_error (tabs _ _ w) i = Some t ->
  exists ls m, nth_error Ls i = Some ls /\ nth_error ms i = Some m /\ tab_ok (hp _ _ w) t ls m.
Proof.
  intros W H. assert (L := nth_lt _ _ _ H).
  destruct (nth_ex Ls i) as (ls & E1); [rewrite (wo_len _ _ _ W); auto|].
  destruct (nth_ex ms i) as (m & E2); [rewrite (wo_mlen _ _ _ W); auto|].
  exists ls, m. split; [auto|split; [auto|]]. eapply wo_tab; eauto.
Qed.

Lemma world_put w Ls ms i t ls m h' t' ls' m' : world_ok w Ls ms ->
  nth_error (tabs _ _ w) i = Some t -> nth_error Ls i = Some ls -> nth_error ms i = Some m ->
  tab_ok h' t' ls' m' -> frame (hp _ _ w) h' ls ls' ->
  world_ok (mkworld _ _ h' (upd i t' (tabs _ _ w))) (upd i ls' Ls) (upd i m' ms).
Proof.
  intros W Et El Em T F. assert (L := nth_lt _ _ _ Et).
  constructor; cbn [hp tabs]; rewrite ?upd_length; try apply W.
  - intros j tj lj mj H1 H2 H3. destruct (Nat.eq_dec i j) as [<-|N].
    + rewrite nth_upd_eq in H1 by auto. rewrite nth_upd_eq in H2 by (rewrite (wo_len _ _ _ W); auto).
      rewrite nth_upd_eq in H3 by (rewrite (wo_mlen _ _ _ W); auto). congruence.
    + rewrite nth_upd_ne in H1 by auto. rewrite nth_upd_ne in H2 by auto. rewrite nth_upd_ne in H3 by auto.
      assert (Tj := wo_tab _ _ _ W _ _ _ _ H1 H2 H3).
      eapply tab_ok_ext; [exact Tj| | |apply F|apply F].
      * intros n I. apply (fr_node _ _ _ _ F).
        -- destruct (ok_shape _ _ _ _ Tj) as (_ & _ & B). auto.
        -- intros I'. apply N. eapply (wo_nsep _ _ _ W); eauto.
      * intros c I. apply (fr_cell _ _ _ _ F).
        -- apply (ok_cbound _ _ _ _ Tj). auto.
        -- intros I'. apply N. eapply (wo_csep _ _ _ W); eauto.
  - assert (B : forall j lj n, j <> i -> nth_error Ls j = Some lj -> In n (nids lj) -> In n (nids ls') -> False).
    { intros j lj n N Hj I I'. destruct (nth_ex (tabs _ _ w) j) as (tj & Htj).
      { rewrite <- (wo_len _ _ _ W). eapply nth_lt; eauto. }
      destruct (world_get _ _ _ _ _ W Htj) as (lj' & mj & A1 & A2 & Tj). rewrite Hj in A1. inversion A1; subst lj'.
      destruct (fr_nids _ _ _ _ F n I') as [X|X].
      - apply N. eapply (wo_nsep _ _ _ W); eauto.
      - destruct (ok_shape _ _ _ _ Tj) as (_ & _ & B). specialize (B n I). lia. }
    intros a b la lb n Ha Hb Ia Ib. destruct (Nat.eq_dec a b) as [|N]; auto. exfalso.
    destruct (Nat.eq_dec i a) as [<-|Na]; [|destruct (Nat.eq_dec i b) as [<-|Nb]].
    + rewrite nth_upd_eq in Ha by (rewrite (wo_len _ _ _ W); auto). inversion Ha; subst la.
      rewrite nth_upd_ne in Hb by auto. eapply (B b lb n); eauto.
    + rewrite nth_upd_eq in Hb by (rewrite (wo_len _ _ _ W); auto). inversion Hb; subst lb.
      rewrite nth_upd_ne in Ha by auto. eapply (B a la n); eauto.
    + rewrite nth_upd_ne in Ha by auto. rewrite nth_upd_ne in Hb by auto. apply N. eapply (wo_nsep _ _ _ W); eauto.
  - assert (B : forall j lj n, j <> i -> nth_error Ls j = Some lj -> In n (cids lj) -> In n (cids ls') -> False).
    { intros j lj n N Hj I I'. destruct (nth_ex (tabs _ _ w) j) as (tj & Htj).
      { rewrite <- (wo_len _ _ _ W). eapply nth_lt; eauto. }
      destruct (world_get _ _ _ _ _ W Htj) as (lj' & mj & A1 & A2 & Tj). rewrite Hj in A1. inversion A1; subst lj'.
      destruct (fr_cids _ _ _ _ F n I') as [X|X].
      - apply N. eapply (wo_csep _ _ _ W); eauto.
      - assert (B := ok_cbound _ _ _ _ Tj n I). lia. }
    intros a b la lb n Ha Hb Ia Ib. destruct (Nat.eq_dec a b) as [|N]; auto. exfalso.
    destruct (Nat.eq_dec i a) as [<-|Na]; [|destruct (Nat.eq_dec i b) as [<-|Nb]].
    + rewrite nth_upd_eq in Ha by (rewrite (wo_len _ _ _ W); auto). inversion Ha; subst la.
      rewrite nth_upd_ne in Hb by auto. eapply (B b lb n); eauto.
    + rewrite nth_upd_eq in Hb by (rewrite (wo_len _ _ _ W); auto). inversion Hb; subst lb.
      rewrite nth_upd_ne in Ha by auto. eapply (B a la n); eauto.
    + rewrite nth_upd_ne in Ha by auto. rewrite nth_upd_ne in Hb by auto. apply N. eapply (wo_csep _ _ _ W); eauto.
Qed.

Lemma nth_snoc {A} (l : list A) x i y : nth_error (l ++ [x]) i = Some y ->
  nth_error l i = Some y \/ (i = length l /\ y = x).
Proof.
  intros H. destruct (Nat.lt_ge_cases i (length l)) as [L|G].
  - rewrite nth_error_app1 in H by auto. auto.
  - rewrite nth_error_app2 in H by auto. destruct (i - length l) as [|q] eqn:E.
    + simpl in H. inversion H. right. split; auto; lia.
    + simpl in H. destruct q; discriminate.
Qed.

(** Adding a table made of fresh pairs. *)
Lemma world_add w Ls ms h' t' ls' m' : world_ok w Ls ms -> tab_ok h' t' ls' m' ->
  (forall n, In n (nids ls') -> nnode _ _ (hp _ _ w) <= n) ->
  (forall c, In c (cids ls') -> ncell _ _ (hp _ _ w) <= c) ->
  nnode _ _ (hp _ _ w) <= nnode _ _ h' -> ncell _ _ (hp _ _ w) <= ncell _ _ h' ->
  (forall n, n < nnode _ _ (hp _ _ w) -> nodes _ _ h' n = nodes _ _ (hp _ _ w) n) ->
  (forall c, c < ncell _ _ (hp _ _ w) -> cells _ _ h' c = cells _ _ (hp _ _ w) c) ->
  world_ok (mkworld _ _ h' (tabs _ _ w ++ [t'])) (Ls ++ [ls']) (ms ++ [m']).
Proof.
  intros W T FN FC LN LC XN XC.
  assert (LL := wo_len _ _ _ W). assert (LM := wo_mlen _ _ _ W).
  assert (BN : forall i li n, nth_error Ls i = Some li -> In n (nids li) -> n < nnode _ _ (hp _ _ w)).
  { intros i li n H I. destruct (nth_ex (tabs _ _ w) i) as (t & Ht); [rewrite <- LL; eapply nth_lt; eauto|].
    destruct (world_get _ _ _ _ _ W Ht) as (l' & m & A1 & A2 & Tj). rewrite H in A1. inversion A1; subst l'.
    destruct (ok_shape _ _ _ _ Tj) as (_ & _ & B). auto. }
  assert (BC : forall i li n, nth_error Ls i = Some li -> In n (cids li) -> n < ncell _ _ (hp _ _ w)).
  { intros i li n H I. destruct (nth_ex (tabs _ _ w) i) as (t & Ht); [rewrite <- LL; eapply nth_lt; eauto|].
    destruct (world_get _ _ _ _ _ W Ht) as (l' & m & A1 & A2 & Tj). rewrite H in A1. inversion A1; subst l'.
    apply (ok_cbound _ _ _ _ Tj n I). }
  constructor; cbn [hp tabs].
  - rewrite !app_length, LL. reflexivity.
  - rewrite !app_length, LM. reflexivity.
  - intros i t ls m H1 H2 H3.
    apply nth_snoc in H1, H2, H3.
    destruct H1 as [H1|[H1 ->]], H2 as [H2|[H2 ->]], H3 as [H3|[H3 ->]]; auto;
      repeat match goal with H : nth_error _ _ = Some _ |- _ => apply nth_lt in H as ?; revert H end; intros; try lia.
    eapply tab_ok_ext; [eapply wo_tab; eauto| | |auto|auto].
    + intros n I. apply XN. eauto.
    + intros n I. apply XC. eauto.
  - intros i j li lj n H1 H2 I1 I2. apply nth_snoc in H1, H2.
    destruct H1 as [H1|[H1 ->]], H2 as [H2|[H2 ->]].
    + eapply (wo_nsep _ _ _ W); eauto.
    + specialize (BN _ _ _ H1 I1). specialize (FN _ I2). lia.
    + specialize (BN _ _ _ H2 I2). specialize (FN _ I1). lia.
    + lia.
  - intros i j li lj n H1 H2 I1 I2. apply nth_snoc in H1, H2.
    destruct H1 as [H1|[H1 ->]], H2 as [H2|[H2 ->]].
    + eapply (wo_csep _ _ _ W); eauto.
    + specialize (BC _ _ _ H1 I1). specialize (FC _ I2). lia.
    + specialize (BC _ _ _ H2 I2). specialize (FC _ I1). lia.
    + lia.
Qed.

(** Results agree: exactly, or up to order for enumerations. *)
Definition out_match (a b : out K V) : Prop :=
  match a, b with
  | REntries _ _ l, REntries _ _ l' => exists x y, l = map Some x /\ l' = map Some y /\ Permutation x y
  | _, _ => a = b
  end.

Definition small (N : nat) (ms : list (amap K V)) : Prop := forall i m, nth_error ms i = Some m -> length m <= N.

Lemma upd_small N ms i m : small N ms -> length m <= N -> small N (upd i m ms).
Proof.
  intros S L j mj H. destruct (Nat.eq_dec i j) as [<-|NE].
  - assert (X := nth_lt _ _ _ H). rewrite upd_length in X. rewrite nth_upd_eq in H by auto. congruence.
  - rewrite nth_upd_ne in H by auto. eauto.
Qed.

Lemma small_weaken N M ms : small N ms -> N <= M -> small M ms.
Proof. intros S L i m H. specialize (S i m H). lia. Qed.

Lemma aset_length m k v : length (aset K V equiv m k v) <= S (length m).
Proof. unfold aset. destruct (aget _ _ _ _ _); [rewrite map_length|simpl]; lia. Qed.

Lemma adel_length m k : length (adel K V equiv m k) <= length m.
Proof. unfold adel. induction m as [|a m IH]; simpl; auto. destruct (negb _); simpl; lia. Qed.

Lemma nth_none_iff (w : world K V) Ls ms i : world_ok w Ls ms ->
  nth_error (tabs _ _ w) i = None -> nth_error ms i = None.
Proof. intros W H. apply nth_error_None in H. apply nth_error_None. rewrite (wo_mlen _ _ _ W). auto. Qed.

Lemma step_ok w Ls ms o N : world_ok w Ls ms -> small N ms -> size_ok (S N) ->
  exists w' x Ls' ms' y, step K V hash equiv w o = Some (w', x) /\ astep K V equiv ms o = (ms', y) /\
    world_ok w' Ls' ms' /\ small (S N) ms' /\ out_match x y.
Proof.
  intros W SM SZ. assert (SM' := small_weaken N (S N) ms SM ltac:(lia)).
  destruct o as [ |i|i k v|i k f d|i k|i|i k|i|i].
  - (* make *)
    destruct (make_table_ok (hp _ _ w)) as (t & E & T). cbn [step astep].
    rewrite E. eexists _, _, (Ls ++ [_]), _, _. split; [reflexivity|]. split; [reflexivity|].
    split; [|split].
    + eapply world_add; eauto; unfold nids, cids; rewrite concat_repeat_nil; simpl; tauto.
    + intros j m H. apply nth_snoc in H. destruct H as [H|[_ ->]]; [eauto|simpl; lia].
    + simpl. f_equal. symmetry. apply (wo_mlen _ _ _ W).
  - (* copy *)
    cbn [step astep]. destruct (nth_error (tabs _ _ w) i) as [t|] eqn:Et.
    + destruct (world_get _ _ _ _ _ W Et) as (ls & m & El & Em & T). rewrite Em.
      destruct (ht_copy_ok _ _ _ _ T) as (h' & t' & ls' & E & T1 & T2 & F1 & F2 & F3 & F4 & F5 & F6). rewrite E.
      eexists _, _, (Ls ++ [ls']), _, _. split; [reflexivity|]. split; [reflexivity|]. split; [|split].
      * eapply world_add; eauto.
      * intros j mj H. apply nth_snoc in H. destruct H as [H|[_ ->]]; eauto.
      * simpl. f_equal. symmetry. apply (wo_mlen _ _ _ W).
    + rewrite (nth_none_iff _ _ _ _ W Et). exists w, (RNoTable _ _), Ls, ms, (RNoTable _ _). do 4 (split; [auto|]). reflexivity.
  - (* set *)
    cbn [step astep]. destruct (nth_error (tabs _ _ w) i) as [t|] eqn:Et.
    + destruct (world_get _ _ _ _ _ W Et) as (ls & m & El & Em & T). rewrite Em.
      destruct (ht_set_ok _ _ _ _ k v T) as (h' & t' & ls' & E & T' & F).
      { unfold size_ok in *. specialize (SM _ _ Em). lia. }
      rewrite E. cbn [put]. eexists _, _, (upd i ls' Ls), _, _. split; [reflexivity|]. split; [reflexivity|].
      split; [eapply world_put; eauto|]. split; [|reflexivity].
      apply upd_small; auto. assert (X := aset_length m k v). specialize (SM _ _ Em). lia.
    + rewrite (nth_none_iff _ _ _ _ W Et). exists w, (RNoTable _ _), Ls, ms, (RNoTable _ _). do 4 (split; [auto|]). reflexivity.
  - (* update *)
    cbn [step astep]. destruct (nth_error (tabs _ _ w) i) as [t|] eqn:Et.
    + destruct (world_get _ _ _ _ _ W Et) as (ls & m & El & Em & T). rewrite Em.
      assert (X : size_ok (S (length m))) by (unfold size_ok in *; specialize (SM _ _ Em); lia).
      assert (U := ht_update_ok _ _ _ _ k f d T X).
      destruct (aget K V equiv m k) as [v|] eqn:G; [|destruct d as [v|]].
      * destruct U as (h' & t' & ls' & E & T' & F). rewrite E. cbn [put].
        eexists _, _, (upd i ls' Ls), _, _. split; [reflexivity|]. split; [reflexivity|].
        split; [eapply world_put; eauto|]. split; [|reflexivity].
        apply upd_small; auto. assert (Y := aset_length m k (f v)). specialize (SM _ _ Em). lia.
      * destruct U as (h' & t' & ls' & E & T' & F). rewrite E. cbn [put].
        eexists _, _, (upd i ls' Ls), _, _. split; [reflexivity|]. split; [reflexivity|].
        split; [eapply world_put; eauto|]. split; [|reflexivity].
        apply upd_small; auto. assert (Y := aset_length m k (f v)). specialize (SM _ _ Em). lia.
      * rewrite U. exists w, (RMissing _ _), Ls, ms, (RMissing _ _). do 4 (split; [auto|]). reflexivity.
    + rewrite (nth_none_iff _ _ _ _ W Et). exists w, (RNoTable _ _), Ls, ms, (RNoTable _ _). do 4 (split; [auto|]). reflexivity.
  - (* delete *)
    cbn [step astep]. destruct (nth_error (tabs _ _ w) i) as [t|] eqn:Et.
    + destruct (world_get _ _ _ _ _ W Et) as (ls & m & El & Em & T). rewrite Em.
      destruct (ht_delete_ok _ _ _ _ k T) as (h' & t' & ls' & E & T' & F).
      { unfold size_ok in *. specialize (SM _ _ Em). lia. }
      rewrite E. cbn [put]. eexists _, _, (upd i ls' Ls), _, _. split; [reflexivity|]. split; [reflexivity|].
      split; [eapply world_put; eauto|]. split; [|reflexivity].
      apply upd_small; auto. assert (X := adel_length m k). specialize (SM _ _ Em). lia.
    + rewrite (nth_none_iff _ _ _ _ W Et). exists w, (RNoTable _ _), Ls, ms, (RNoTable _ _). do 4 (split; [auto|]). reflexivity.
  - (* clear *)
    cbn [step astep]. destruct (nth_error (tabs _ _ w) i) as [t|] eqn:Et.
    + destruct (world_get _ _ _ _ _ W Et) as (ls & m & El & Em & T). rewrite Em.
      unfold ht_clear. destruct (make_table_ok (hp _ _ w)) as (t' & E & T'). rewrite E. cbn [put].
      eexists _, _, (upd i _ Ls), _, _. split; [reflexivity|]. split; [reflexivity|].
      split; [eapply world_put; eauto|].
      * constructor; auto; unfold nids, cids; rewrite concat_repeat_nil; simpl; tauto.
      * split; [|reflexivity]. apply upd_small; auto. simpl. lia.
    + rewrite (nth_none_iff _ _ _ _ W Et). exists w, (RNoTable _ _), Ls, ms, (RNoTable _ _). do 4 (split; [auto|]). reflexivity.
  - (* ref *)
    cbn [step astep]. destruct (nth_error (tabs _ _ w) i) as [t|] eqn:Et.
    + destruct (world_get _ _ _ _ _ W Et) as (ls & m & El & Em & T). rewrite Em.
      rewrite (ht_ref_ok _ _ _ _ k T). eexists w, _, Ls, ms, _. do 2 (split; [reflexivity|]). do 2 (split; [auto|]). reflexivity.
    + rewrite (nth_none_iff _ _ _ _ W Et). exists w, (RNoTable _ _), Ls, ms, (RNoTable _ _). do 4 (split; [auto|]). reflexivity.
  - (* size *)
    cbn [step astep]. destruct (nth_error (tabs _ _ w) i) as [t|] eqn:Et.
    + destruct (world_get _ _ _ _ _ W Et) as (ls & m & El & Em & T). rewrite Em.
      eexists w, _, Ls, ms, _. do 2 (split; [reflexivity|]). do 2 (split; [auto|]). simpl. f_equal. apply T.
    + rewrite (nth_none_iff _ _ _ _ W Et). exists w, (RNoTable _ _), Ls, ms, (RNoTable _ _). do 4 (split; [auto|]). reflexivity.
  - (* entries *)
    cbn [step astep]. destruct (nth_error (tabs _ _ w) i) as [t|] eqn:Et.
    + destruct (world_get _ _ _ _ _ W Et) as (ls & m & El & Em & T). rewrite Em.
      destruct (ht_entries_ok _ _ _ _ T) as (l & E & P). rewrite E.
      eexists w, _, Ls, ms, _. split; [reflexivity|]. split; [reflexivity|]. split; auto. split; auto.
      simpl. exists l, m. auto.
    + rewrite (nth_none_iff _ _ _ _ W Et). exists w, (RNoTable _ _), Ls, ms, (RNoTable _ _). do 4 (split; [auto|]). reflexivity.
Qed.

Lemma run_ok : forall os w Ls ms N, world_ok w Ls ms -> small N ms -> size_ok (N + length os) ->
  exists w' xs Ls', run K V hash equiv w os = Some (w', xs) /\
    world_ok w' Ls' (fst (arun K V equiv ms os)) /\
    small (N + length os) (fst (arun K V equiv ms os)) /\
    Forall2 out_match xs (snd (arun K V equiv ms os)).
Proof.
  induction os as [|o os IH]; intros w Ls ms N W SM SZ.
  - exists w, [], Ls. simpl. do 2 (split; [auto|]). split; [|constructor]. rewrite Nat.add_0_r. auto.
  - simpl in SZ. destruct (step_ok w Ls ms o N W SM) as (w1 & x & Ls1 & ms1 & y & E & A & W1 & SM1 & M).
    { unfold size_ok in *. lia. }
    destruct (IH w1 Ls1 ms1 (S N) W1 SM1) as (w2 & xs & Ls2 & E2 & W2 & SM2 & M2).
    { unfold size_ok in *. lia. }
    simpl. rewrite E, A, E2. destruct (arun K V equiv ms1 os) as [ms2 ys] eqn:R. simpl in *.
    exists w2, (x :: xs), Ls2. do 2 (split; [auto|]). split; [|constructor; auto].
    replace (N + S (length os)) with (S (N + length os)) by lia. auto.
Qed.

Lemma world0_ok : world_ok (world0 K V) [] [].
Proof. constructor; simpl; auto; intros [|i]; simpl; intros; discriminate. Qed.

Lemma run_refines os : size_ok (length os) ->
  exists w xs, run K V hash equiv (world0 K V) os = Some (w, xs) /\
    Forall2 out_match xs (snd (arun K V equiv [] os)).
Proof.
  intros SZ. destruct (run_ok os (world0 K V) [] [] 0 world0_ok) as (w & xs & Ls & E & _ & _ & M); auto.
  - intros [|i] m H; discriminate.
  - exists w, xs. auto.
Qed.

(** ** Consequences *)

Definition observes (o : op K V) (j : nat) : Prop :=
  (exists k, o = ORef _ _ j k) \/ o = OSize _ _ j \/ o = OEntries _ _ j.

(** The table an operation may change. *)
Definition mutates (o : op K V) (j : nat) : Prop :=
  match o with
  | OSet _ _ i _ _ | OUpdate _ _ i _ _ _ | ODelete _ _ i _ | OClear _ _ i => i = j
  | _ => False
  end.

Lemma run_app : forall os1 os2 w w1 xs1 w2 xs2,
  run K V hash equiv w os1 = Some (w1, xs1) -> run K V hash equiv w1 os2 = Some (w2, xs2) ->
  run K V hash equiv w (os1 ++ os2) = Some (w2, xs1 ++ xs2).
Proof.
  induction os1 as [|o os1 IH]; intros os2 w w1 xs1 w2 xs2 H1 H2; simpl in *.
  - inversion H1; subst. auto.
  - destruct (step K V hash equiv w o) as [[wa xa]|]; [|discriminate].
    destruct (run K V hash equiv wa os1) as [[wb xb]|] eqn:R; [|discriminate]. inversion H1; subst.
    rewrite (IH _ _ _ _ _ _ R H2). reflexivity.
Qed.

Lemma arun_app : forall os1 os2 ms,
  arun K V equiv ms (os1 ++ os2) =
  (fst (arun K V equiv (fst (arun K V equiv ms os1)) os2),
   snd (arun K V equiv ms os1) ++ snd (arun K V equiv (fst (arun K V equiv ms os1)) os2)).
Proof.
  induction os1 as [|o os1 IH]; intros os2 ms; simpl.
  - destruct (arun K V equiv ms os2); reflexivity.
  - destruct (astep K V equiv ms o) as [ms1 x]. rewrite IH.
    destruct (arun K V equiv ms1 os1) as [ms2 xs]. simpl. reflexivity.
Qed.

Definition after (os : list (op K V)) : list (amap K V) := fst (arun K V equiv [] os).

(** The last result of a run is the abstract one. *)
Lemma last_result os o w xs x : size_ok (length (os ++ [o])) ->
  run K V hash equiv (world0 K V) (os ++ [o]) = Some (w, xs ++ [x]) ->
  out_match x (snd (astep K V equiv (after os) o)).
Proof.
  intros SZ R. destruct (run_refines (os ++ [o]) SZ) as (w' & xs' & R' & M). rewrite R in R'. inversion R'; subst.
  rewrite arun_app in M. simpl in M. fold (after os) in M.
  destruct (astep K V equiv (after os) o) as [ms y]. simpl in *.
  apply Forall2_app_inv_l in M. destruct M as (l1 & l2 & M1 & M2 & E).
  inversion M2 as [|? y' ? ? M3 M4]; subst. inversion M4; subst.
  apply app_inj_tail in E. destruct E as [_ E]. subst. auto.
Qed.

Lemma last_result_exists os o : size_ok (length (os ++ [o])) ->
  exists w xs x, run K V hash equiv (world0 K V) (os ++ [o]) = Some (w, xs ++ [x]).
Proof.
  intros SZ. destruct (run_refines (os ++ [o]) SZ) as (w & xs & R & M).
  rewrite arun_app in M. simpl in M. destruct (astep _ _ _ _ o) as [ms y]. simpl in M.
  apply Forall2_app_inv_r in M. destruct M as (l1 & l2 & M1 & M2 & E).
  inversion M2 as [|x ? ? ? M3 M4]; subst. inversion M4; subst. eauto.
Qed.

Lemma out_match_join a b c : out_match a b -> out_match c b -> out_match a c.
Proof.
  destruct a, b; simpl; intros H1 H2; try (inversion H1; subst; destruct c; simpl in *; congruence);
  destruct c; simpl in *; try congruence; try (destruct H2 as (? & ? & ? & ? & ?); congruence).
  destruct H1 as (x & y & -> & -> & P). destruct H2 as (x' & y' & -> & E & P').
  exists x, x'. split; auto. split; auto.
  assert (y = y').
  { clear -E. revert y' E. induction y as [|a y IH]; intros [|b y'] E; simpl in E; try discriminate; auto.
    inversion E. f_equal; auto. }
  subst. rewrite P. symmetry. auto.
Qed.

Lemma astep_obs ms o j : observes o j -> fst (astep K V equiv ms o) = ms.
Proof. intros [(k & ->)|[->| ->]]; simpl; destruct (nth_error ms j); auto. Qed.

Lemma astep_obs_dep ms ms' o j m : observes o j -> nth_error ms j = Some m -> nth_error ms' j = Some m ->
  snd (astep K V equiv ms o) = snd (astep K V equiv ms' o).
Proof. intros [(k & ->)|[->| ->]] H1 H2; simpl; rewrite H1, H2; auto. Qed.

Lemma astep_obs_none ms o j : observes o j -> nth_error ms j = None -> snd (astep K V equiv ms o) = RNoTable _ _.
Proof. intros [(k & ->)|[->| ->]] H1; simpl; rewrite H1; auto. Qed.

Lemma astep_frame ms o j m : ~ mutates o j -> nth_error ms j = Some m ->
  nth_error (fst (astep K V equiv ms o)) j = Some m.
Proof.
  intros NM H. assert (L := nth_lt _ _ _ H).
  destruct o as [ |i|i k v|i k f d|i k|i|i k|i|i]; simpl in *;
    try (rewrite nth_error_app1; auto; fail);
    destruct (nth_error ms i) as [mi|] eqn:E; simpl; auto;
    try (rewrite nth_error_app1; auto; fail);
    try (rewrite nth_upd_ne; auto; fail).
  destruct (aget K V equiv mi k); [|destruct d]; simpl; auto; rewrite nth_upd_ne; auto.
Qed.

Lemma arun_frame : forall os ms j m, (forall o, In o os -> ~ mutates o j) -> nth_error ms j = Some m ->
  nth_error (fst (arun K V equiv ms os)) j = Some m.
Proof.
  induction os as [|o os IH]; intros ms j m NM H; simpl; auto.
  assert (X := astep_frame ms o j m (NM o (or_introl eq_refl)) H).
  destruct (astep K V equiv ms o) as [ms1 x]. simpl in X.
  assert (Y := IH ms1 j m (fun o' I => NM o' (or_intror I)) X).
  destruct (arun K V equiv ms1 os). auto.
Qed.

Lemma isolation os1 os2 o j w1 xs1 x1 w2 xs2 x2 :
  observes o j -> (forall o', In o' os2 -> ~ mutates o' j) ->
  size_ok (length (os1 ++ os2 ++ [o])) ->
  run K V hash equiv (world0 K V) (os1 ++ [o]) = Some (w1, xs1 ++ [x1]) ->
  run K V hash equiv (world0 K V) (os1 ++ os2 ++ [o]) = Some (w2, xs2 ++ [x2]) ->
  x1 <> RNoTable _ _ -> out_match x1 x2.
Proof.
  intros OB NM SZ R1 R2 NE.
  assert (M1 : out_match x1 (snd (astep K V equiv (after os1) o))).
  { eapply last_result; eauto. unfold size_ok in *. rewrite !app_length in *. lia. }
  assert (M2 : out_match x2 (snd (astep K V equiv (after (os1 ++ os2)) o))).
  { eapply last_result; [|rewrite <- app_assoc; eauto]. rewrite <- app_assoc. auto. }
  eapply out_match_join; [exact M1|].
  destruct (nth_error (after os1) j) as [m|] eqn:E.
  - erewrite (astep_obs_dep (after os1)); eauto. unfold after. rewrite arun_app. simpl.
    apply arun_frame; auto.
  - rewrite (astep_obs_none _ _ _ OB E) in M1. destruct x1; simpl in M1; congruence.
Qed.

Definition retarget (o : op K V) (j : nat) : op K V :=
  match o with
  | ORef _ _ _ k => ORef _ _ j k
  | OSize _ _ _ => OSize _ _ j
  | OEntries _ _ _ => OEntries _ _ j
  | _ => o
  end.

Lemma copy_isolation os1 os2 o i j w0 xs0 w1 xs1 x1 w2 xs2 x2 :
  observes o i -> (forall o', In o' os2 -> ~ mutates o' j) ->
  size_ok (length (os1 ++ OCopy _ _ i :: os2 ++ [o])) ->
  run K V hash equiv (world0 K V) (os1 ++ [OCopy _ _ i]) = Some (w0, xs0 ++ [RTable _ _ j]) ->
  run K V hash equiv (world0 K V) (os1 ++ [o]) = Some (w1, xs1 ++ [x1]) ->
  run K V hash equiv (world0 K V) (os1 ++ OCopy _ _ i :: os2 ++ [retarget o j]) = Some (w2, xs2 ++ [x2]) ->
  out_match x1 x2.
Proof.
  intros OB NM SZ R0 R1 R2.
  assert (M0 : out_match (RTable _ _ j) (snd (astep K V equiv (after os1) (OCopy _ _ i)))).
  { eapply last_result; eauto. unfold size_ok in *. rewrite !app_length in *. simpl in *. rewrite app_length in *. simpl in *. lia. }
  assert (M1 : out_match x1 (snd (astep K V equiv (after os1) o))).
  { eapply last_result; eauto. unfold size_ok in *. rewrite !app_length in *. simpl in *. rewrite app_length in *. simpl in *. lia. }
  assert (M2 : out_match x2 (snd (astep K V equiv (after (os1 ++ OCopy _ _ i :: os2)) (retarget o j)))).
  { eapply last_result; [|rewrite <- app_assoc; eauto].
    unfold size_ok in *. rewrite !app_length in *. simpl in *. rewrite app_length in *. simpl in *. lia. }
  eapply out_match_join; [exact M1|]. simpl in M0.
  destruct (nth_error (after os1) i) as [m|] eqn:E; simpl in M0; [|discriminate].
  inversion M0 as [Ej].
  assert (X : nth_error (after (os1 ++ OCopy _ _ i :: os2)) j = Some m).
  { unfold after. rewrite arun_app. fold (after os1). cbn [fst arun astep]. rewrite E.
    assert (Y := arun_frame os2 (after os1 ++ [m]) j m NM).
    destruct (arun K V equiv (after os1 ++ [m]) os2). apply Y. rewrite Ej.
    rewrite nth_error_app2, Nat.sub_diag by lia. reflexivity. }
  assert (Q : snd (astep K V equiv (after os1) o) =
              snd (astep K V equiv (after (os1 ++ OCopy _ _ i :: os2)) (retarget o j))).
  { destruct OB as [(k & ->)|[->| ->]]; simpl; rewrite E, X; reflexivity. }
  rewrite Q. exact M2.
Qed.

Lemma enumeration os i k w xs l n r : size_ok (length os + 3) ->
  run K V hash equiv (world0 K V) (os ++ [OEntries _ _ i; OSize _ _ i; ORef _ _ i k]) =
    Some (w, xs ++ [REntries _ _ l; RSize _ _ n; RRef _ _ r]) ->
  exists es, l = map Some es /\ n = Z.of_nat (length es) /\
    ForallOrdPairs (fun a b => equiv (fst a) (fst b) = false) es /\
    (forall v, r = Some v <-> exists k', In (k', v) es /\ equiv k' k = true).
Proof.
  intros SZ R.
  destruct (run_ok os (world0 K V) [] [] 0 world0_ok) as (w1 & xs1 & Ls & R1 & W & SM & M).
  { intros [|a] b H; discriminate. }
  { unfold size_ok in *. lia. }
  destruct (run_ok [OEntries _ _ i; OSize _ _ i; ORef _ _ i k] w1 Ls _ (0 + length os) W SM) as (w2 & xs2 & Ls2 & R2 & W2 & _ & M2).
  { unfold size_ok in *. simpl. lia. }
  rewrite (run_app _ _ _ _ _ _ _ R1 R2) in R. inversion R as [[Ew Ex]].
  assert (X : xs2 = [REntries K V l; RSize K V n; RRef K V r]).
  { assert (L3 : length xs2 = 3).
    { rewrite (Forall2_len _ _ _ M2). simpl.
      destruct (nth_error (fst (arun K V equiv [] os)) i) eqn:E1; rewrite ?E1; reflexivity. }
    destruct xs2 as [|a [|b [|c [|]]]]; try discriminate.
    change ([a] ++ [b] ++ [c]) with [a; b; c] in *.
    replace (xs1 ++ [a; b; c]) with (((xs1 ++ [a]) ++ [b]) ++ [c]) in Ex by (rewrite <- !app_assoc; reflexivity).
    replace (xs ++ [REntries K V l; RSize K V n; RRef K V r]) with
      (((xs ++ [REntries K V l]) ++ [RSize K V n]) ++ [RRef K V r]) in Ex by (rewrite <- !app_assoc; reflexivity).
    apply app_inj_tail in Ex. destruct Ex as [Ex ->]. apply app_inj_tail in Ex. destruct Ex as [Ex ->].
    apply app_inj_tail in Ex. destruct Ex as [Ex ->]. reflexivity. }
  subst xs2. set (ms := fst (arun K V equiv [] os)) in *.
  simpl in M2. destruct (nth_error ms i) as [m|] eqn:E; rewrite ?E in M2.
  - inversion M2 as [|? ? ? ? A1 B1]; subst. inversion B1 as [|? ? ? ? A2 B2]; subst.
    inversion B2 as [|? ? ? ? A3 B3]; subst. simpl in A1, A2, A3.
    destruct A1 as (x & y & -> & Ey & P). inversion A2; subst n. inversion A3; subst r.
    assert (y = m).
    { clear -Ey. symmetry. revert y Ey. induction m as [|a m IH]; intros [|b y] Ey; simpl in Ey; try discriminate; auto.
      inversion Ey. f_equal; auto. }
    subst y. destruct (nth_ex (tabs _ _ w1) i) as (t & Et). { rewrite <- (wo_mlen _ _ _ W). eapply nth_lt; eauto. }
    destruct (world_get _ _ _ _ _ W Et) as (ls & m' & El & Em & T). rewrite E in Em. inversion Em; subst m'.
    exists x. split; auto. split; [now rewrite (Permutation_length P)|].
    split; [eapply distinct_perm; [symmetry; exact P|apply T]|].
    intros v. split.
    + intros G. clear -G P. assert (H : exists k', In (k', v) m /\ equiv k' k = true).
      { clear P. revert G. induction m as [|[a b] m IH]; simpl; [discriminate|]. destruct (equiv a k) eqn:Q.
        - intros G. inversion G; subst. eauto.
        - intros G. destruct (IH G) as (k' & I & J). eauto. }
      destruct H as (k' & I & J). exists k'. split; auto. eapply Permutation_in; [symmetry; exact P|auto].
    + intros (k' & I & J). eapply aget_in; [apply T| |exact J]. eapply Permutation_in; eauto.
  - inversion M2 as [|? ? ? ? A1 B1]; subst. simpl in A1. discriminate.
Qed.

(** The specification is a finite map. *)
Lemma aget_aset m k v k' : aget K V equiv (aset K V equiv m k v) k' =
  if equiv k k' then Some v else aget K V equiv m k'.
Proof.
  unfold aset. destruct (aget K V equiv m k) as [v0|] eqn:E; simpl; auto.
  destruct (equiv k k') eqn:Q.
  - revert v0 E. induction m as [|[a b] m IH]; simpl; intros v0 E; [discriminate|].
    destruct (equiv a k) eqn:QA.
    + simpl. rewrite (equiv_trans a k k'); auto.
    + simpl. destruct (equiv a k') eqn:QB; eauto.
      rewrite (equiv_trans a k' k) in QA; auto; [discriminate|]. now rewrite equiv_sym.
  - clear E. induction m as [|[a b] m IH]; simpl; auto.
    destruct (equiv a k) eqn:QA; simpl; destruct (equiv a k') eqn:QB; auto.
    rewrite (equiv_trans k a k') in Q; auto; [discriminate|]. now rewrite equiv_sym.
Qed.

Lemma aget_adel m k k' : aget K V equiv (adel K V equiv m k) k' =
  if equiv k k' then None else aget K V equiv m k'.
Proof.
  unfold adel. induction m as [|[a b] m IH]; simpl.
  - destruct (equiv k k'); auto.
  - destruct (equiv a k) eqn:QA; simpl; rewrite ?IH.
    + destruct (equiv k k') eqn:Q, (equiv a k') eqn:QB; auto.
      rewrite (equiv_trans k a k') in Q; auto; [discriminate|]. now rewrite equiv_sym.
    + destruct (equiv k k') eqn:Q, (equiv a k') eqn:QB; auto.
      rewrite (equiv_trans a k' k) in QA; auto; [discriminate|]. now rewrite equiv_sym.
Qed.

End Proofs.
