(** Environments refine finite maps. *)
From Coq Require Import ZArith NArith Bool Ascii String List Lia Permutation.
From Verif Require Import Base Hashtable HashtableProofs Symbol SymbolProofs Env.
Import ListNotations.

Lemma NoDup_map_inj {A B} (f : A -> B) l x y : NoDup (map f l) -> In x l -> In y l -> f x = f y -> x = y.
Proof.
  induction l as [|a l IH]; simpl; intros N Hx Hy E; [destruct Hx|].
  inversion N as [|? ? Na Nl]; subst.
  destruct Hx as [->|Hx], Hy as [->|Hy]; auto.
  - exfalso. apply Na. rewrite E. apply in_map; auto.
  - exfalso. apply Na. rewrite <- E. apply in_map; auto.
Qed.

Lemma Forall2_impl2 {A B} (R S : A -> B -> Prop) la lb :
  (forall a b, In a la -> In b lb -> R a b -> S a b) -> Forall2 R la lb -> Forall2 S la lb.
Proof.
  intros HI H. revert HI. induction H; intros HI; constructor.
  - apply HI; auto with datatypes.
  - apply IHForall2. intros; apply HI; auto with datatypes.
Qed.

Lemma nth_upd_some {A} i (x y : A) l : nth_error l i = Some y -> nth_error (upd i x l) i = Some x.
Proof. intros H. apply nth_upd_eq. apply nth_error_Some. congruence. Qed.

Section EnvProofs.
Variables K V : Type.
Variable eq_hash : K -> N.
Variable keqb : K -> K -> bool.
Hypothesis keqb_spec : forall a b, keqb a b = true <-> a = b.
Hypothesis hash_range : forall k, (eq_hash k < word_mod)%N.

Notation slotv := (slotv V).
Notation heap := (list (K * slotv)).
Notation sget := (aget K slotv keqb).
Notation sset := (aset K slotv keqb).
Notation find_in := (find_in K V keqb).
Notation env_find := (env_find K V eq_hash keqb).

(** *** Finite maps *)
Lemma sget_in (m : list (K * slotv)) k s : NoDup (map fst m) -> (sget m k = Some s <-> In (k, s) m).
Proof.
  induction m as [|[a x] m IH]; simpl; intros N; [split; [discriminate|tauto]|].
  inversion N as [|? ? Na Nl]; subst. destruct (keqb a k) eqn:E.
  - apply keqb_spec in E as ->. split.
    + intros H; injection H as ->; auto.
    + intros [H|H]; [congruence|]. exfalso. apply Na. apply (in_map fst) in H; exact H.
  - rewrite IH by auto. split; auto. intros [H|H]; auto. injection H as -> ->.
    assert (keqb k k = true) by (apply keqb_spec; auto). congruence.
Qed.
Lemma sget_none (m : list (K * slotv)) k : sget m k = None <-> ~ In k (map fst m).
Proof.
  induction m as [|[a x] m IH]; simpl; [tauto|].
  destruct (keqb a k) eqn:E.
  - apply keqb_spec in E as ->. split; [discriminate|tauto].
  - rewrite IH. split; [|tauto]. intros H [->|H']; auto.
    assert (keqb k k = true) by (apply keqb_spec; auto). congruence.
Qed.
Lemma sset_keys (m : list (K * slotv)) k s :
  map fst (sset m k s) = match sget m k with Some _ => map fst m | None => k :: map fst m end.
Proof.
  unfold aset. destruct (sget m k); simpl; auto.
  rewrite map_map. apply map_ext. intros [a x]; simpl. destruct keqb; auto.
Qed.
Lemma sset_nodup m k s : NoDup (map fst m) -> NoDup (map fst (sset m k s)).
Proof.
  intros N. rewrite sset_keys. destruct (sget m k) eqn:E; auto.
  constructor; auto. apply sget_none; auto.
Qed.
Lemma sget_sset m k s k' : sget (sset m k s) k' = if keqb k k' then Some s else sget m k'.
Proof.
  assert (R : forall a, keqb a a = true) by (intros; apply keqb_spec; auto).
  apply aget_aset; intros.
  - destruct (keqb a b) eqn:E, (keqb b a) eqn:E'; auto.
    + apply keqb_spec in E; subst. congruence.
    + apply keqb_spec in E'; subst. congruence.
  - apply keqb_spec in H. subst; auto.
Qed.

(** *** One environment *)
Definition cids (e : tenv) : list nat := map inner (concat (tbuckets e)).
Definition keyof (ps : heap) (c : nat) : option K := option_map fst (nth_error ps c).

Record env_ok (ps : heap) (e : tenv) (m : list (K * slotv)) : Prop := {
  eo_pos : 0 < length (tbuckets e);
  eo_count : tcount e = N.of_nat (length (concat (tbuckets e)));
  eo_place : forall i c, In c (nth i (tbuckets e) []) -> exists k s,
     nth_error ps (inner c) = Some (k, s) /\ ohash c = long_of_u64 (eq_hash k) /\
     i = bidx (eq_hash k) (length (tbuckets e));
  eo_perm : Permutation (map (fun c => nth_error ps (inner c)) (concat (tbuckets e))) (map Some m);
  eo_keys : NoDup (map fst m) }.

Lemma in_concat_nth' {A} (x : A) ls : In x (concat ls) -> exists i, In x (nth i ls []).
Proof.
  intros H. apply in_concat in H as (l & Hl & Hx). apply (In_nth _ _ []) in Hl as (i & _ & <-). eauto.
Qed.

Lemma eo_cell ps e m c : env_ok ps e m -> In c (concat (tbuckets e)) ->
  exists k s, nth_error ps (inner c) = Some (k, s) /\ ohash c = long_of_u64 (eq_hash k) /\ In (k, s) m /\
    In c (nth (bidx (eq_hash k) (length (tbuckets e))) (tbuckets e) []).
Proof.
  intros E H. destruct (in_concat_nth' _ _ H) as (i & Hi).
  destruct (eo_place _ _ _ E _ _ Hi) as (k & s & H1 & H2 & H3). exists k, s. subst i.
  split; auto. split; auto. split; auto.
  apply (in_map (fun c => nth_error ps (inner c))) in H. rewrite (eo_perm _ _ _ E), H1 in H.
  apply in_map_iff in H as (x & Hx & Hin). congruence.
Qed.
Lemma eo_cell_inv ps e m k s : env_ok ps e m -> In (k, s) m ->
  exists c, In c (concat (tbuckets e)) /\ nth_error ps (inner c) = Some (k, s).
Proof.
  intros E H. apply (in_map Some) in H. rewrite <- (eo_perm _ _ _ E) in H.
  apply in_map_iff in H as (c & Hc & Hin). eauto.
Qed.
Lemma eo_keynodup ps e m : env_ok ps e m -> NoDup (map (fun c => keyof ps (inner c)) (concat (tbuckets e))).
Proof.
  intros E. unfold keyof.
  rewrite <- (map_map (fun c => nth_error ps (inner c)) (option_map fst)).
  rewrite (eo_perm _ _ _ E), map_map. simpl. rewrite <- (map_map fst Some).
  apply FinFun.Injective_map_NoDup; [intros a b H; congruence|apply (eo_keys _ _ _ E)].
Qed.
Lemma eo_uniq ps e m c d k : env_ok ps e m -> In c (concat (tbuckets e)) -> In d (concat (tbuckets e)) ->
  keyof ps (inner c) = Some k -> keyof ps (inner d) = Some k -> c = d.
Proof.
  intros E Hc Hd Kc Kd. eapply NoDup_map_inj; [apply (eo_keynodup _ _ _ E)|auto|auto|]. cbn beta. congruence.
Qed.
Lemma eo_len ps e m : env_ok ps e m -> length (concat (tbuckets e)) = length m.
Proof.
  intros E. pose proof (Permutation_length (eo_perm _ _ _ E)) as L. rewrite !map_length in L. exact L.
Qed.
Lemma eo_lt ps e m c : env_ok ps e m -> In c (cids e) -> c < length ps.
Proof.
  intros E H. apply in_map_iff in H as (x & <- & Hx).
  destruct (eo_cell _ _ _ _ E Hx) as (k & s & H1 & _). apply nth_error_Some. congruence.
Qed.

Lemma env_ok_ext ps ps' e m : env_ok ps e m ->
  (forall c, In c (cids e) -> nth_error ps' c = nth_error ps c) -> env_ok ps' e m.
Proof.
  intros E H. assert (H' : forall c, In c (concat (tbuckets e)) -> nth_error ps' (inner c) = nth_error ps (inner c)).
  { intros c Hc. apply H. apply in_map; auto. }
  destruct E. constructor; auto.
  - intros i c Hc. rewrite H' by (eapply in_nth_concat; eauto). auto.
  - rewrite <- eo_perm0. rewrite (map_ext_in _ _ _ H'). reflexivity.
Qed.
Lemma env_ok_perm ps e m m' : env_ok ps e m -> Permutation m m' -> env_ok ps e m'.
Proof.
  intros [] P. constructor; auto.
  - rewrite eo_perm0, P. reflexivity.
  - rewrite <- P; auto.
Qed.

(** *** Lookup *)
Lemma find_in_some ps b k c : find_in ps b k = Some c -> In c b /\ keyof ps (inner c) = Some k.
Proof.
  induction b as [|d b IH]; simpl; intros H; [discriminate|].
  destruct (nth_error ps (inner d)) as [[k' s]|] eqn:E.
  - destruct (keqb k' k) eqn:Q.
    + injection H as <-. apply keqb_spec in Q as ->. split; auto. unfold keyof; rewrite E; reflexivity.
    + apply IH in H. tauto.
  - apply IH in H. tauto.
Qed.
Lemma find_in_none ps b k : find_in ps b k = None -> forall c, In c b -> keyof ps (inner c) <> Some k.
Proof.
  induction b as [|d b IH]; simpl; intros H c [].
  - subst d. unfold keyof. destruct (nth_error ps (inner c)) as [[k' s]|]; simpl; [|discriminate].
    destruct (keqb k' k) eqn:Q; [discriminate|]. intros E; injection E as ->.
    assert (keqb k k = true) by (apply keqb_spec; auto). congruence.
  - destruct (nth_error ps (inner d)) as [[k' s]|]; auto. destruct (keqb k' k); [discriminate|auto].
Qed.

Lemma env_find_ok ps e m k : env_ok ps e m ->
  match sget m k with
  | Some s => exists c, env_find ps e k = Some c /\ In c (concat (tbuckets e)) /\ nth_error ps (inner c) = Some (k, s)
  | None => env_find ps e k = None
  end.
Proof.
  intros E. unfold Env.env_find. set (b := nth _ _ []).
  destruct (find_in ps b k) as [c|] eqn:F.
  - apply find_in_some in F as [Hin Hk]. assert (Hc : In c (concat (tbuckets e))) by (eapply in_nth_concat; eauto).
    destruct (eo_cell _ _ _ _ E Hc) as (k' & s' & H1 & _ & H3 & _). unfold keyof in Hk. rewrite H1 in Hk.
    injection Hk as ->. apply (sget_in m k s' (eo_keys _ _ _ E)) in H3. rewrite H3. eauto.
  - destruct (sget m k) as [s|] eqn:G; auto. exfalso.
    apply (sget_in m k s (eo_keys _ _ _ E)) in G. destruct (eo_cell_inv _ _ _ _ _ E G) as (c & Hc & Hn).
    destruct (eo_cell _ _ _ _ E Hc) as (k' & s' & H1 & _ & _ & H4).
    rewrite Hn in H1. injection H1 as <- <-. eapply find_in_none; [exact F|exact H4|].
    unfold keyof; rewrite Hn; reflexivity.
Qed.

(** *** Pushing a cell *)
Lemma bidx_lt h a : 0 < a -> bidx h a < a.
Proof. intros. unfold bidx. pose proof (N.mod_lt h (N.of_nat a)). lia. Qed.
Lemma fidx_hash k a : fidx (long_of_u64 (eq_hash k)) a = bidx (eq_hash k) a.
Proof.
  unfold fidx. f_equal. unfold u64_of_long, long_of_u64. pose proof (hash_range k) as R. unfold word_mod, word_max_long in *.
  destruct (N.ltb_spec (eq_hash k) (2 ^ 63)).
  - rewrite Z.mod_small by lia. lia.
  - replace ((Z.of_N (eq_hash k) - 2 ^ 64) mod 2 ^ 64)%Z with (Z.of_N (eq_hash k)); [lia|].
    apply Zmod_unique with (-1)%Z; lia.
Qed.

Lemma tpush_length i c bs : length (tpush i c bs) = length bs.
Proof. apply upd_length. Qed.
Lemma tpush_perm i c bs : i < length bs -> Permutation (concat (tpush i c bs)) (c :: concat bs).
Proof.
  unfold tpush. revert i; induction bs as [|b r IH]; intros [|i] H; simpl in *; try lia.
  - reflexivity.
  - rewrite (IH i) by lia. symmetry; apply Permutation_middle.
Qed.
Lemma tpush_nth i c bs j x : In x (nth j (tpush i c bs) []) -> (x = c /\ j = i) \/ In x (nth j bs []).
Proof.
  unfold tpush. destruct (Nat.eq_dec i j) as [->|Hn].
  - destruct (Nat.ltb_spec j (length bs)) as [Hl|Hl].
    + rewrite nth_upd_eq' by auto. intros [<-|H]; auto.
    + rewrite nth_overflow by (rewrite upd_length; auto). intros [].
  - rewrite nth_upd_ne' by auto. auto.
Qed.

(** Inserting a cell whose inner pair is [c0] into a table. *)
Lemma push_env_ok ps e m c k s : env_ok ps e m -> nth_error ps (inner c) = Some (k, s) ->
  ohash c = long_of_u64 (eq_hash k) -> sget m k = None ->
  env_ok ps (mktenv (tpush (bidx (eq_hash k) (length (tbuckets e))) c (tbuckets e)) (tcount e + 1)) ((k, s) :: m).
Proof.
  intros E Hn Hh Hg. pose proof (tpush_perm _ c _ (bidx_lt (eq_hash k) _ (eo_pos _ _ _ E))) as P.
  destruct E. constructor; cbn [tbuckets tcount].
  - rewrite tpush_length; auto.
  - rewrite P. simpl. lia.
  - intros i d Hd. rewrite tpush_length. apply tpush_nth in Hd as [[-> ->]|Hd]; eauto.
  - rewrite P. simpl. rewrite Hn. constructor. auto.
  - simpl. constructor; auto. apply sget_none; auto.
Qed.

(** Rehashing. *)
Lemma tmove_length a b : forall bs, length (tmove_chain a bs b) = length bs.
Proof. unfold tmove_chain. induction b; intros; simpl; auto. rewrite IHb, tpush_length; auto. Qed.
Lemma tmove_chain_ok (ps : heap) a : 0 < a -> forall b bs, length bs = a ->
  (forall c, In c b -> exists k s, nth_error ps (inner c) = Some (k, s) /\ ohash c = long_of_u64 (eq_hash k)) ->
  (forall i c, In c (nth i bs []) -> exists k s, nth_error ps (inner c) = Some (k, s) /\
     ohash c = long_of_u64 (eq_hash k) /\ i = bidx (eq_hash k) a) ->
  Permutation (concat (tmove_chain a bs b)) (b ++ concat bs) /\
  (forall i c, In c (nth i (tmove_chain a bs b) []) -> exists k s, nth_error ps (inner c) = Some (k, s) /\
     ohash c = long_of_u64 (eq_hash k) /\ i = bidx (eq_hash k) a).
Proof.
  intros Ha. unfold tmove_chain. induction b as [|d b IH]; intros bs Hl Hb Hp; simpl; [split; auto|].
  destruct (Hb d (or_introl eq_refl)) as (k & s & H1 & H2).
  assert (Hi : fidx (ohash d) a = bidx (eq_hash k) a) by (rewrite H2; apply fidx_hash).
  destruct (IH (tpush (fidx (ohash d) a) d bs)) as (I1 & I2).
  - rewrite tpush_length; auto.
  - intros; apply Hb; right; auto.
  - intros i c Hc. apply tpush_nth in Hc as [[-> ->]|Hc]; [exists k, s; auto|auto].
  - split; auto. rewrite I1, tpush_perm.
    + rewrite <- Permutation_middle. reflexivity.
    + rewrite Hl, Hi. apply bidx_lt; auto.
Qed.
Lemma tmove_all_ok (ps : heap) a : 0 < a -> forall old bs, length bs = a ->
  (forall c, In c (concat old) -> exists k s, nth_error ps (inner c) = Some (k, s) /\ ohash c = long_of_u64 (eq_hash k)) ->
  (forall i c, In c (nth i bs []) -> exists k s, nth_error ps (inner c) = Some (k, s) /\
     ohash c = long_of_u64 (eq_hash k) /\ i = bidx (eq_hash k) a) ->
  length (fold_left (tmove_chain a) old bs) = a /\
  Permutation (concat (fold_left (tmove_chain a) old bs)) (concat old ++ concat bs) /\
  (forall i c, In c (nth i (fold_left (tmove_chain a) old bs) []) -> exists k s, nth_error ps (inner c) = Some (k, s) /\
     ohash c = long_of_u64 (eq_hash k) /\ i = bidx (eq_hash k) a).
Proof.
  intros Ha. induction old as [|b old IH]; intros bs Hl Hb Hp; simpl; [split; auto|].
  destruct (tmove_chain_ok ps a Ha b bs Hl) as (T1 & T2); auto.
  { intros c Hc. apply Hb. simpl. apply in_app_iff; auto. }
  destruct (IH (tmove_chain a bs b)) as (I1 & I2 & I3).
  - rewrite tmove_length; auto.
  - intros c Hc. apply Hb. simpl. apply in_app_iff; auto.
  - auto.
  - split; auto. split; auto. rewrite I2, T1, !app_assoc.
    apply Permutation_app_tail, Permutation_app_comm.
Qed.

Lemma nth_repeat_nil {A} n i : nth i (repeat (@nil A) n) [] = [].
Proof. revert i; induction n; intros [|i]; simpl; auto. Qed.

Lemma alloc_for_some n : (n <= 4611686018427388039)%N -> exists a, alloc_for n = Some a /\ (n <= a)%N /\ (13 <= a)%N.
Proof.
  intros H. destruct (alloc_for n) as [a|] eqn:E.
  - exists a. split; auto. unfold alloc_for in E. apply find_some in E as [E1 E2].
    apply N.leb_le in E2. split; auto.
    apply In_nth_error in E1 as (i & E1). eapply sizes_pos; eauto.
  - exfalso. unfold alloc_for in E. eapply find_none in E.
    2: { apply (nth_error_In bucket_sizes 58). reflexivity. }
    cbn beta in E. apply N.leb_gt in E. lia.
Qed.

Lemma env_resize_ok ps e m : env_ok ps e m -> (4 * tcount e <= 4611686018427388039)%N ->
  exists e', env_resize e = Some e' /\ env_ok ps e' m /\ Permutation (concat (tbuckets e')) (concat (tbuckets e)) /\
    tcount e' = tcount e.
Proof.
  intros E Hb. unfold env_resize. destruct (alloc_for_some _ Hb) as (a & -> & _ & Ha).
  eexists; split; [reflexivity|].
  destruct (tmove_all_ok ps (N.to_nat a) ltac:(lia) (tbuckets e) (repeat [] (N.to_nat a))) as (T1 & T2 & T3).
  - apply repeat_length.
  - intros c Hc. destruct (eo_cell _ _ _ _ E Hc) as (k & s & H1 & H2 & _). eauto.
  - intros i c. rewrite nth_repeat_nil. intros [].
  - rewrite concat_repeat_nil, app_nil_r in T2. split; [|auto].
    constructor; cbn [tbuckets tcount].
    + lia.
    + rewrite T2. apply (eo_count _ _ _ E).
    + rewrite T1. exact T3.
    + rewrite T2. apply (eo_perm _ _ _ E).
    + apply (eo_keys _ _ _ E).
Qed.

Lemma nth_app_lt {A} (l l' : list A) i : i < length l -> nth_error (l ++ l') i = nth_error l i.
Proof. apply nth_error_app1. Qed.

Lemma env_insert_ok ps e m k s : env_ok ps e m -> sget m k = None ->
  (4 * N.of_nat (length m) <= 4611686018427388039)%N ->
  exists e', env_insert K V eq_hash ps e k s = Some (ps ++ [(k, s)], e', length ps) /\
    env_ok (ps ++ [(k, s)]) e' ((k, s) :: m) /\ Permutation (cids e') (length ps :: cids e).
Proof.
  intros E Hg Hb. rewrite <- (eo_len _ _ _ E), <- (eo_count _ _ _ E) in Hb.
  unfold env_insert.
  assert (exists e1, (if (N.of_nat (length (tbuckets e)) <? tcount e)%N then env_resize e else Some e) = Some e1 /\
            env_ok ps e1 m /\ Permutation (concat (tbuckets e1)) (concat (tbuckets e))) as (e1 & -> & E1 & P1).
  { destruct (N.ltb _ _).
    - destruct (env_resize_ok _ _ _ E Hb) as (e' & H1 & H2 & H3 & _). eauto.
    - exists e. auto. }
  eexists; split; [reflexivity|]. split.
  - apply (push_env_ok _ e1 m (mkocell (length ps) (long_of_u64 (eq_hash k)) true)); auto.
    + eapply env_ok_ext; [exact E1|]. intros c Hc. apply nth_app_lt. eapply eo_lt; eauto.
    + cbn [inner]. rewrite nth_error_app2, Nat.sub_diag by lia. reflexivity.
  - unfold cids; cbn [tbuckets]. rewrite tpush_perm by (apply bidx_lt, (eo_pos _ _ _ E1)). simpl.
    constructor. apply Permutation_map; auto.
Qed.

(** *** Assignment *)
Lemma set_pair_nth (ps : heap) c k s0 s d : nth_error ps c = Some (k, s0) ->
  nth_error (set_pair K V ps c s) d = if Nat.eqb c d then Some (k, s) else nth_error ps d.
Proof.
  intros H. unfold set_pair. rewrite H. destruct (Nat.eqb_spec c d) as [->|Hn].
  - eapply nth_upd_some; eauto.
  - apply nth_upd_ne; auto.
Qed.
Lemma set_pair_keyof (ps : heap) c s d : keyof (set_pair K V ps c s) d = keyof ps d.
Proof.
  unfold keyof. destruct (nth_error ps c) as [[k s0]|] eqn:E.
  - rewrite (set_pair_nth _ _ _ _ _ _ E). destruct (Nat.eqb_spec c d) as [->|]; auto. rewrite E; reflexivity.
  - unfold set_pair. rewrite E. reflexivity.
Qed.
Lemma set_pair_length (ps : heap) c s : length (set_pair K V ps c s) = length ps.
Proof. unfold set_pair. destruct (nth_error ps c) as [[]|]; auto. apply upd_length. Qed.

Lemma set_env_ok ps e m c k s0 s : env_ok ps e m -> In c (cids e) -> nth_error ps c = Some (k, s0) ->
  NoDup (cids e) -> env_ok (set_pair K V ps c s) e (sset m k s).
Proof.
  intros E Hc Hn Hnd.
  apply in_map_iff in Hc as (c0 & <- & Hc).
  destruct (eo_cell _ _ _ _ E Hc) as (k' & s' & H1 & _ & H3 & _). rewrite Hn in H1. injection H1 as <- <-.
  assert (Hg : sget m k = Some s0) by (apply sget_in; auto; apply (eo_keys _ _ _ E)).
  constructor.
  - apply (eo_pos _ _ _ E).
  - apply (eo_count _ _ _ E).
  - intros i d Hd. destruct (eo_place _ _ _ E _ _ Hd) as (k1 & s1 & P1 & P2 & P3).
    rewrite (set_pair_nth _ _ _ _ _ _ Hn). destruct (Nat.eqb_spec (inner c0) (inner d)) as [Q|Q].
    + rewrite <- Q, Hn in P1. injection P1 as <- <-. exists k, s. auto.
    + eauto.
  - unfold aset. rewrite Hg.
    transitivity (map (option_map (fun kv => if keqb (fst kv) k then (fst kv, s) else kv))
                      (map (fun c => nth_error ps (inner c)) (concat (tbuckets e)))).
    + rewrite map_map. apply Permutation_refl'. apply map_ext_in. intros d Hd.
      rewrite (set_pair_nth _ _ _ _ _ _ Hn). destruct (Nat.eqb_spec (inner c0) (inner d)) as [Q|Q].
      * rewrite <- Q, Hn. simpl. destruct (keqb k k) eqn:R; auto.
        assert (keqb k k = true) by (apply keqb_spec; auto). congruence.
      * destruct (eo_cell _ _ _ _ E Hd) as (k1 & s1 & D1 & _). rewrite D1. simpl.
        destruct (keqb k1 k) eqn:R; auto. exfalso. apply keqb_spec in R as ->.
        apply Q. f_equal. eapply (eo_uniq _ _ _ c0 d k E); auto; unfold keyof; rewrite ?Hn, ?D1; reflexivity.
    + rewrite (eo_perm _ _ _ E), map_map. simpl. rewrite map_map. reflexivity.
  - apply sset_nodup, (eo_keys _ _ _ E).
Qed.

(** *** Names *)
Lemma env_symbols_ok ps e m : env_ok ps e m -> Permutation (env_symbols K V ps e) (map fst m).
Proof.
  intros E. unfold env_symbols.
  assert (G1 : forall b acc, (forall c, In c b -> nth_error ps (inner c) <> None) ->
     map Some (fold_left (fun acc c => match nth_error ps (inner c) with Some (k, _) => k :: acc | None => acc end) b acc)
     = rev (map (fun c => keyof ps (inner c)) b) ++ map Some acc).
  { induction b as [|d b IH]; intros acc Hb; simpl; auto.
    destruct (nth_error ps (inner d)) as [[k s]|] eqn:Ed.
    - rewrite IH by (intros; apply Hb; right; auto). simpl. unfold keyof at 3. rewrite Ed. simpl.
      rewrite <- app_assoc. reflexivity.
    - exfalso. eapply Hb; [left; reflexivity|auto]. }
  assert (G2 : forall bs acc, (forall c, In c (concat bs) -> nth_error ps (inner c) <> None) ->
     map Some (fold_left (fun acc b => fold_left (fun acc c => match nth_error ps (inner c) with Some (k, _) => k :: acc | None => acc end) b acc) bs acc)
     = rev (map (fun c => keyof ps (inner c)) (concat bs)) ++ map Some acc).
  { induction bs as [|b bs IH]; intros acc Hb; simpl; auto.
    rewrite IH by (intros; apply Hb; simpl; apply in_app_iff; auto).
    rewrite G1 by (intros; apply Hb; simpl; apply in_app_iff; auto).
    rewrite map_app, rev_app_distr, app_assoc. reflexivity. }
  specialize (G2 (tbuckets e) []). rewrite app_nil_r in G2.
  assert (P : Permutation (map Some (fold_left (fun acc b => fold_left (fun acc c => match nth_error ps (inner c) with Some (k, _) => k :: acc | None => acc end) b acc) (tbuckets e) []))
              (map Some (map fst m))).
  { rewrite G2.
    - rewrite <- Permutation_rev. unfold keyof.
      rewrite <- (map_map (fun c => nth_error ps (inner c)) (option_map fst)), (eo_perm _ _ _ E), !map_map. reflexivity.
    - intros c Hc. destruct (eo_cell _ _ _ _ E Hc) as (k & s & H1 & _). congruence. }
  apply Permutation_map_inv in P as (l & P1 & P2).
  assert (forall (l1 l2 : list K), map Some l1 = map Some l2 -> l1 = l2) as Inj.
  { induction l1; intros [|y l2]; simpl; intros Q; try discriminate; auto. injection Q as -> Q. f_equal; auto. }
  apply Inj in P1. rewrite P1. symmetry; exact P2.
Qed.

(** *** Copying *)
Lemma make_env_ok ps hint : (4 * hint <= 4611686018427388039)%N ->
  exists e, make_env hint = Some e /\ env_ok ps e [] /\ concat (tbuckets e) = [].
Proof.
  intros H. unfold make_env. destruct (alloc_for_some _ H) as (a & -> & _ & Ha).
  eexists; split; [reflexivity|]. cbn [tbuckets]. rewrite concat_repeat_nil. split; auto.
  constructor; cbn [tbuckets tcount].
  - rewrite repeat_length; lia.
  - rewrite concat_repeat_nil; reflexivity.
  - intros i c. rewrite nth_repeat_nil. intros [].
  - rewrite concat_repeat_nil. reflexivity.
  - constructor.
Qed.

Notation restrict := (restrict K V keqb).

Lemma restrict_keys m syms k : In k (map fst (restrict m syms)) -> In k syms.
Proof.
  unfold Env.restrict. induction syms as [|a syms IH]; simpl; auto.
  rewrite map_app, in_app_iff. intros [H|H]; auto.
  destruct (sget m a); simpl in H; intuition.
Qed.

Lemma copy_syms_ok src mut msrc : forall syms ps e2 m2,
  env_ok ps src msrc -> env_ok ps e2 m2 -> NoDup syms ->
  (forall k, In k syms -> sget m2 k = None) ->
  exists ps' e2' new, copy_syms K V eq_hash keqb src mut syms ps e2 = (ps ++ ps', e2') /\
    env_ok (ps ++ ps') e2' (rev (restrict msrc syms) ++ m2) /\
    Permutation (cids e2') (new ++ cids e2) /\ new = rev (seq (length ps) (length ps')).
Proof.
  induction syms as [|k syms IH]; intros ps e2 m2 Es E2 Hnd Hdis; cbn [copy_syms].
  - exists [], e2, []. rewrite app_nil_r. simpl. auto.
  - inversion Hnd as [|? ? Hk Hnd']; subst.
    pose proof (env_find_ok ps src msrc k Es) as F. unfold Env.restrict; cbn [flat_map].
    destruct (sget msrc k) as [s|] eqn:G.
    + destruct F as (c & F1 & F2 & F3). rewrite F1, F3.
      destruct (eo_cell _ _ _ _ Es F2) as (k' & s' & C1 & C2 & _). rewrite F3 in C1. injection C1 as <- <-.
      assert (Hi : fidx (ohash c) (length (tbuckets e2)) = bidx (eq_hash k) (length (tbuckets e2))).
      { rewrite C2. apply fidx_hash. }
      rewrite Hi.
      set (cell := mkocell (length ps) (ohash c) mut).
      set (e3 := mktenv _ _).
      assert (Ext : forall e m, env_ok ps e m -> env_ok (ps ++ [(k, s)]) e m).
      { intros e m E. eapply env_ok_ext; [exact E|]. intros d Hd. apply nth_app_lt. eapply eo_lt; eauto. }
      assert (E3 : env_ok (ps ++ [(k, s)]) e3 ((k, s) :: m2)).
      { apply (push_env_ok _ e2 m2 cell); auto.
        - unfold cell; cbn [inner]. rewrite nth_error_app2, Nat.sub_diag by lia. reflexivity.
        - apply Hdis; left; auto. }
      destruct (IH (ps ++ [(k, s)]) e3 ((k, s) :: m2)) as (ps' & e2' & new & R1 & R2 & R3 & R4); auto.
      * intros j Hj. simpl. destruct (keqb k j) eqn:Q; [apply keqb_spec in Q; subst; tauto|].
        apply Hdis; right; auto.
      * rewrite R1. exists ((k, s) :: ps'), e2', (new ++ [length ps]). rewrite <- app_assoc. simpl.
        split; [reflexivity|]. rewrite <- app_assoc in R2. simpl in R2.
        split; [rewrite <- app_assoc; exact R2|]. split.
        -- rewrite R3, <- app_assoc. apply Permutation_app_head. unfold e3, cids; cbn [tbuckets].
           rewrite tpush_perm by (apply bidx_lt, (eo_pos _ _ _ E2)). reflexivity.
        -- rewrite R4, app_length. simpl. rewrite Nat.add_1_r. reflexivity.
    + rewrite F. simpl. apply IH; auto. intros j Hj. apply Hdis; right; auto.
Qed.

(* top_env_copy *)
Definition copied (ps ps' : heap) (c c' : ocell) : Prop :=
  ohash c' = ohash c /\ nth_error ps' (inner c') = nth_error ps (inner c).

Lemma copied_ext ps ps1 ps2 c c' : copied ps ps1 c c' -> inner c' < length ps1 ->
  copied ps (ps1 ++ ps2) c c'.
Proof. intros [H1 H2] L. split; auto. rewrite nth_app_lt; auto. Qed.

Lemma copy_chain_ok mut : forall b ps, (forall c, In c b -> inner c < length ps) ->
  exists kvs b', copy_chain K V mut ps b = (ps ++ kvs, b') /\ Forall2 (copied ps (ps ++ kvs)) b b' /\
    map inner b' = seq (length ps) (length b) /\ length kvs = length b.
Proof.
  induction b as [|c b IH]; intros ps Hb; cbn [copy_chain].
  - exists [], []. rewrite app_nil_r. simpl. auto.
  - destruct (nth_error ps (inner c)) as [kv|] eqn:E.
    2: { apply nth_error_None in E. specialize (Hb c (or_introl eq_refl)). lia. }
    destruct (IH (ps ++ [kv])) as (kvs & b' & R1 & R2 & R3 & R4).
    { intros d Hd. rewrite app_length; simpl. specialize (Hb d (or_intror Hd)). lia. }
    rewrite R1. exists (kv :: kvs), (mkocell (length ps) (ohash c) mut :: b').
    rewrite <- app_assoc in *. simpl in *. split; [reflexivity|]. split; [|split].
    + constructor.
      * split; auto. cbn [inner]. rewrite nth_error_app2, Nat.sub_diag by lia. simpl. auto.
      * assert (Hb' : forall d, In d b -> nth_error (ps ++ [kv]) (inner d) = nth_error ps (inner d)).
        { intros d Hd. apply nth_app_lt. apply Hb; auto. }
        clear - R2 Hb'. revert Hb'. induction R2; intros; constructor; auto.
        -- destruct H. split; auto. rewrite H0. apply Hb'. left; auto.
        -- apply IHR2. intros; apply Hb'; right; auto.
    + rewrite R3, app_length. simpl. rewrite Nat.add_1_r. reflexivity.
    + lia.
Qed.

Lemma Forall2_app_inv {A B} (R : A -> B -> Prop) a1 a2 b1 b2 :
  Forall2 R a1 b1 -> Forall2 R a2 b2 -> Forall2 R (a1 ++ a2) (b1 ++ b2).
Proof. apply Forall2_app. Qed.

Lemma copy_chains_ok mut : forall bs ps, (forall c, In c (concat bs) -> inner c < length ps) ->
  exists kvs bs', copy_chains K V mut ps bs = (ps ++ kvs, bs') /\
    Forall2 (Forall2 (copied ps (ps ++ kvs))) bs bs' /\
    map inner (concat bs') = seq (length ps) (length (concat bs)) /\ length kvs = length (concat bs).
Proof.
  induction bs as [|b bs IH]; intros ps Hb; cbn [copy_chains].
  - exists [], []. rewrite app_nil_r. simpl. auto.
  - destruct (copy_chain_ok mut b ps) as (k1 & b' & A1 & A2 & A3 & A4).
    { intros c Hc. apply Hb. simpl. apply in_app_iff; auto. }
    destruct (IH (ps ++ k1)) as (k2 & bs' & B1 & B2 & B3 & B4).
    { intros c Hc. rewrite app_length. assert (inner c < length ps); [|lia].
      apply Hb. simpl. apply in_app_iff; auto. }
    rewrite A1, B1. exists (k1 ++ k2), (b' :: bs'). rewrite <- app_assoc in *. split; [reflexivity|].
    split; [|split].
    + constructor.
      * assert (Hin : forall c', In c' b' -> inner c' < length (ps ++ k1)).
        { intros c' Hc'. apply (in_map inner) in Hc'. rewrite A3 in Hc'. apply in_seq in Hc'. rewrite app_length. lia. }
        rewrite app_assoc. revert Hin. clear - A2. induction A2; intros; constructor; auto.
        -- apply copied_ext; auto. apply Hin; left; auto.
        -- apply IHA2. intros; apply Hin; right; auto.
      * eapply Forall2_impl2; [|exact B2]. intros x y Hx Hy HF.
        assert (Hx' : forall c, In c x -> nth_error (ps ++ k1) (inner c) = nth_error ps (inner c)).
        { intros c Hc. apply nth_app_lt. apply Hb. simpl. apply in_app_iff; right. apply in_concat. eauto. }
        clear - HF Hx'. revert Hx'. induction HF; intros; constructor; auto.
        -- destruct H. split; auto. rewrite H0. apply Hx'. left; auto.
        -- apply IHHF. intros; apply Hx'; right; auto.
    + simpl. rewrite map_app, A3, B3, !app_length, A4, seq_app. reflexivity.
    + simpl. rewrite !app_length. lia.
Qed.

Lemma Forall2_concat {A B} (R : A -> B -> Prop) xs ys : Forall2 (Forall2 R) xs ys -> Forall2 R (concat xs) (concat ys).
Proof. induction 1; simpl; auto. apply Forall2_app; auto. Qed.

Lemma env_copy_ok ps src m mut : env_ok ps src m ->
  exists kvs e2, env_copy K V ps src mut = (ps ++ kvs, e2) /\ env_ok (ps ++ kvs) e2 m /\
    cids e2 = seq (length ps) (length kvs).
Proof.
  intros E. unfold env_copy.
  destruct (copy_chains_ok mut (tbuckets src) ps) as (kvs & bs' & R1 & R2 & R3 & R4).
  { intros c Hc. eapply eo_lt; [exact E|]. apply in_map; auto. }
  rewrite R1. eexists kvs, _. split; [reflexivity|]. split.
  - assert (L : length bs' = length (tbuckets src)) by (symmetry; eapply Forall2_len; eauto).
    pose proof (Forall2_concat _ _ _ R2) as RC.
    assert (M : map (fun c => nth_error (ps ++ kvs) (inner c)) (concat bs') = map (fun c => nth_error ps (inner c)) (concat (tbuckets src))).
    { clear - RC. induction RC; simpl; auto. f_equal; auto. apply H. }
    constructor; cbn [tbuckets tcount].
    + rewrite L. apply (eo_pos _ _ _ E).
    + rewrite (eo_count _ _ _ E). f_equal. eapply Forall2_len; eauto.
    + intros i c Hc. rewrite L.
      destruct (nth_error bs' i) as [b'|] eqn:Eb.
      2: { apply nth_error_None in Eb. rewrite nth_overflow in Hc by auto. destruct Hc. }
      rewrite (nth_error_nth _ _ _ Eb) in Hc.
      destruct (Forall2_nth_r _ _ _ _ _ R2 Eb) as (b & Eb1 & Hf).
      apply In_nth_error in Hc as (j & Hj). destruct (Forall2_nth_r _ _ _ _ _ Hf Hj) as (d & Hd & [D1 D2]).
      destruct (eo_place _ _ _ E i d) as (k & s & P1 & P2 & P3).
      { rewrite (nth_error_nth _ _ _ Eb1). eapply nth_error_In; eauto. }
      exists k, s. rewrite D2, D1. auto.
    + rewrite M. apply (eo_perm _ _ _ E).
    + apply (eo_keys _ _ _ E).
  - unfold cids; cbn [tbuckets]. rewrite R3, R4. reflexivity.
Qed.

(** *** The world *)
Notation world := (world K V).
Notation spec := (spec K V).

Definition ref_ok (ps : heap) (es : list tenv) (c : nat) (r : nat * K) : Prop :=
  exists e, nth_error es (fst r) = Some e /\ In c (cids e) /\ keyof ps c = Some (snd r).

Record world_ok (w : world) (s : spec) : Prop := {
  wo_envs : Forall2 (env_ok (pairs _ _ w)) (envs _ _ w) (senvs _ _ s);
  wo_sep : NoDup (concat (map cids (envs _ _ w)));
  wo_refs : Forall2 (ref_ok (pairs _ _ w) (envs _ _ w)) (refs _ _ w) (srefs _ _ s) }.

Lemma concat_map_split {A B} (f : A -> list B) l i x : nth_error l i = Some x ->
  exists l1 l2, l = l1 ++ x :: l2 /\ length l1 = i /\ concat (map f l) = concat (map f l1) ++ f x ++ concat (map f l2).
Proof.
  intros H. destruct (nth_error_split _ _ H) as (l1 & l2 & -> & L). exists l1, l2.
  split; auto. split; auto. rewrite map_app, concat_app. reflexivity.
Qed.

Lemma upd_app {A} (l1 : list A) x y l2 : upd (length l1) y (l1 ++ x :: l2) = l1 ++ y :: l2.
Proof. induction l1; simpl; auto. f_equal; auto. Qed.

(** Other environments do not share pairs with environment [i]. *)
Lemma sep_other w s i e j e' c : world_ok w s -> nth_error (envs _ _ w) i = Some e ->
  nth_error (envs _ _ w) j = Some e' -> i <> j -> In c (cids e) -> ~ In c (cids e').
Proof.
  intros W Hi Hj Hij Hc Hc'. destruct (concat_map_split cids _ _ _ Hi) as (l1 & l2 & E & L & Ec).
  pose proof (wo_sep _ _ W) as N. rewrite Ec in N.
  assert (Hin : In c (concat (map cids l1) ++ concat (map cids l2))).
  { rewrite E in Hj. destruct (Nat.lt_trichotomy j (length l1)) as [H|[H|H]].
    - rewrite nth_error_app1 in Hj by lia. apply in_app_iff; left. apply in_concat.
      exists (cids e'). split; auto. apply in_map. eapply nth_error_In; eauto.
    - lia.
    - rewrite nth_error_app2 in Hj by lia. destruct (j - length l1) as [|q] eqn:Q; [lia|]. simpl in Hj.
      apply in_app_iff; right. apply in_concat. exists (cids e'). split; auto. apply in_map. eapply nth_error_In; eauto. }
  assert (P : Permutation (concat (map cids l1) ++ cids e ++ concat (map cids l2))
                          (cids e ++ (concat (map cids l1) ++ concat (map cids l2)))).
  { rewrite !app_assoc. apply Permutation_app_tail, Permutation_app_comm. }
  rewrite P in N. clear - N Hc Hin. induction (cids e) as [|a l IH]; [destruct Hc|].
  simpl in N. inversion N; subst. destruct Hc as [->|Hc]; auto. apply H1. apply in_app_iff; auto.
Qed.

Lemma world_lt w s i e c : world_ok w s -> nth_error (envs _ _ w) i = Some e -> In c (cids e) ->
  c < length (pairs _ _ w).
Proof.
  intros W Hi Hc. destruct (Forall2_nth _ _ _ _ _ (wo_envs _ _ W) Hi) as (m & _ & E). eapply eo_lt; eauto.
Qed.
Lemma all_lt w s c : world_ok w s -> In c (concat (map cids (envs _ _ w))) -> c < length (pairs _ _ w).
Proof.
  intros W H. apply in_concat in H as (l & Hl & Hc). apply in_map_iff in Hl as (e & <- & He).
  apply In_nth_error in He as (i & Hi). eapply world_lt; eauto.
Qed.

Lemma Forall2_pointwise {A B} (R : A -> B -> Prop) : forall la lb, length la = length lb ->
  (forall j a b, nth_error la j = Some a -> nth_error lb j = Some b -> R a b) -> Forall2 R la lb.
Proof.
  induction la as [|a la IH]; intros [|b lb] L H; simpl in L; try discriminate; constructor.
  - apply (H 0); reflexivity.
  - apply IH; [lia|]. intros j. apply (H (S j)).
Qed.

(** Replace environment [i]. *)
Lemma world_put w s i e m ps' e' m' new : world_ok w s ->
  nth_error (envs _ _ w) i = Some e -> nth_error (senvs _ _ s) i = Some m ->
  env_ok ps' e' m' -> Permutation (cids e') (new ++ cids e) ->
  NoDup new -> (forall c, In c new -> length (pairs _ _ w) <= c) ->
  (forall c, c < length (pairs _ _ w) -> keyof ps' c = keyof (pairs _ _ w) c) ->
  (forall c, c < length (pairs _ _ w) -> ~ In c (cids e) -> nth_error ps' c = nth_error (pairs _ _ w) c) ->
  world_ok (mkworld _ _ ps' (upd i e' (envs _ _ w)) (refs _ _ w)) (mkspec _ _ (upd i m' (senvs _ _ s)) (srefs _ _ s)).
Proof.
  intros W Hi Hm E' P Nn Hnew Hk Hn.
  pose proof (Forall2_len _ _ _ (wo_envs _ _ W)) as Len.
  assert (Li : i < length (envs _ _ w)) by (apply nth_error_Some; congruence).
  constructor; cbn [pairs envs refs senvs srefs].
  - apply Forall2_pointwise; [rewrite !upd_length; auto|]. intros j a b Ha Hb.
    destruct (Nat.eq_dec i j) as [<-|Hij].
    + rewrite nth_upd_eq in Ha by lia. rewrite nth_upd_eq in Hb by lia. congruence.
    + rewrite nth_upd_ne in Ha by auto. rewrite nth_upd_ne in Hb by auto.
      destruct (Forall2_nth _ _ _ _ _ (wo_envs _ _ W) Ha) as (b' & Hb' & Eo).
      pose proof (eq_trans (eq_sym Hb) Hb') as Q. injection Q as <-. clear Hb'. eapply env_ok_ext; [exact Eo|].
      intros c Hc. apply Hn; [eapply world_lt; eauto|].
      intros Hce. eapply (sep_other w s i e j a); eauto.
  - destruct (concat_map_split cids _ _ _ Hi) as (l1 & l2 & El & L & Ec).
    rewrite El, <- L, upd_app, map_app, concat_app. simpl.
    assert (Q : Permutation (concat (map cids l1) ++ cids e' ++ concat (map cids l2))
                            (new ++ concat (map cids (envs _ _ w)))).
    { rewrite Ec, P. rewrite !app_assoc. apply Permutation_app_tail.
      rewrite <- !app_assoc. rewrite !app_assoc. apply Permutation_app_tail. apply Permutation_app_comm. }
    rewrite Q. clear Q.
    assert (D : forall c, In c new -> ~ In c (concat (map cids (envs _ _ w)))).
    { intros c Hc Hin. apply Hnew in Hc. eapply all_lt in Hin; eauto. lia. }
    pose proof (wo_sep _ _ W) as N. clear - Nn D N. induction new as [|a new IH]; simpl; auto.
    inversion Nn; subst. constructor.
    + rewrite in_app_iff. intros [H|H]; auto. eapply D; [left; reflexivity|auto].
    + apply IH; auto. intros c Hc. apply D; right; auto.
  - eapply Forall2_impl2; [|exact (wo_refs _ _ W)]. intros c [j k] _ _ (e0 & H1 & H2 & H3). cbn [fst snd] in *.
    assert (Hlt : c < length (pairs _ _ w)) by (eapply world_lt; eauto).
    destruct (Nat.eq_dec i j) as [<-|Hij].
    + exists e'. cbn [fst snd]. rewrite nth_upd_eq by lia. split; auto. rewrite Hi in H1. injection H1 as <-.
      split; [|rewrite Hk; auto]. rewrite P. apply in_app_iff; auto.
    + exists e0. cbn [fst snd]. rewrite nth_upd_ne by auto. split; auto. split; auto. rewrite Hk; auto.
Qed.

(** Add an environment. *)
Lemma world_add w s ps' e' m' new : world_ok w s ->
  env_ok (pairs _ _ w ++ ps') e' m' -> Permutation (cids e') new ->
  NoDup new -> (forall c, In c new -> length (pairs _ _ w) <= c) ->
  world_ok (mkworld _ _ (pairs _ _ w ++ ps') (envs _ _ w ++ [e']) (refs _ _ w)) (mkspec _ _ (senvs _ _ s ++ [m']) (srefs _ _ s)).
Proof.
  intros W E' P Nn Hnew. constructor; cbn [pairs envs refs senvs srefs].
  - apply Forall2_app; [|constructor; auto].
    apply Forall2_pointwise; [eapply Forall2_len, (wo_envs _ _ W)|]. intros j a b Ha Hb.
    destruct (Forall2_nth _ _ _ _ _ (wo_envs _ _ W) Ha) as (b' & Hb' & Eo).
    pose proof (eq_trans (eq_sym Hb) Hb') as Q. injection Q as <-. clear Hb'. eapply env_ok_ext; [exact Eo|].
    intros c Hc. apply nth_app_lt. eapply world_lt; eauto.
  - rewrite map_app, concat_app. simpl. rewrite app_nil_r, P.
    rewrite Permutation_app_comm.
    assert (D : forall c, In c new -> ~ In c (concat (map cids (envs _ _ w)))).
    { intros c Hc Hin. apply Hnew in Hc. eapply all_lt in Hin; eauto. lia. }
    pose proof (wo_sep _ _ W) as N. clear - Nn D N. induction new as [|a new IH]; simpl; auto.
    inversion Nn; subst. constructor.
    + rewrite in_app_iff. intros [H|H]; auto. eapply D; [left; reflexivity|auto].
    + apply IH; auto. intros c Hc. apply D; right; auto.
  - eapply Forall2_impl2; [|exact (wo_refs _ _ W)]. intros c [j k] _ _ (e0 & H1 & H2 & H3). cbn [fst snd] in *.
    exists e0. cbn [fst snd]. split; [|split; auto].
    + rewrite nth_app_lt; auto. apply nth_error_Some. congruence.
    + unfold keyof. rewrite nth_app_lt; [auto|]. eapply world_lt; eauto.
Qed.

Lemma world_env w s i m : world_ok w s -> nth_error (senvs _ _ s) i = Some m ->
  exists e, nth_error (envs _ _ w) i = Some e /\ env_ok (pairs _ _ w) e m /\ NoDup (cids e).
Proof.
  intros W H. destruct (Forall2_nth_r _ _ _ _ _ (wo_envs _ _ W) H) as (e & He & Eo). exists e.
  split; auto. split; auto. destruct (concat_map_split cids _ _ _ He) as (l1 & l2 & _ & _ & Ec).
  pose proof (wo_sep _ _ W) as N. rewrite Ec in N.
  apply NoDup_app_remove_l in N. apply NoDup_app_remove_r in N. exact N.
Qed.

(** Outputs agree; lists of names agree up to order. *)
Definition out_eq (x y : eout K V) : Prop :=
  match x, y with
  | XNames _ _ a, XNames _ _ b => Permutation a b
  | _, _ => x = y
  end.

(** Operations that name no duplicate and not too many symbols. *)
Definition op_ok (o : eop K V) : Prop :=
  match o with
  | ECopy _ _ _ _ syms => NoDup syms /\ (N.of_nat (length syms) < 2 ^ 59)%N
  | _ => True
  end.

Definition small (s : spec) (n : nat) : Prop := Forall (fun m => length m <= n) (senvs _ _ s).

Lemma sset_length (m : list (K * slotv)) k v : length (sset m k v) <= S (length m).
Proof. unfold aset. destruct (sget m k); simpl; [rewrite map_length|]; lia. Qed.
Lemma restrict_length m syms : NoDup (map fst m) -> NoDup syms -> length (restrict m syms) <= length m.
Proof.
  intros N Ns. rewrite <- (map_length fst (restrict m syms)), <- (map_length fst m).
  apply NoDup_incl_length.
  - unfold Env.restrict. induction syms as [|k syms IH]; simpl; [constructor|].
    inversion Ns; subst. rewrite map_app. destruct (sget m k); simpl; auto. constructor; auto.
    intros H. apply restrict_keys in H. auto.
  - unfold Env.restrict. intros k Hk. apply in_map_iff in Hk as ([k' x] & <- & Hin). simpl.
    apply in_flat_map in Hin as (a & _ & Ha). destruct (sget m a) eqn:E; [|destruct Ha].
    destruct Ha as [Ha|[]]. injection Ha as <- <-. apply sget_in in E; auto. apply (in_map fst) in E. exact E.
Qed.
Lemma Forall_upd {A} (P : A -> Prop) l i x : Forall P l -> P x -> Forall P (upd i x l).
Proof. intros H. revert i; induction H; intros [|i] Hx; simpl; constructor; auto. Qed.

Lemma keyof_app ps l c : c < length ps -> keyof (ps ++ l) c = keyof ps c.
Proof. intros. unfold keyof. rewrite nth_app_lt; auto. Qed.

Lemma put_set w s i e m c k s0 v : world_ok w s -> nth_error (envs _ _ w) i = Some e ->
  nth_error (senvs _ _ s) i = Some m -> env_ok (pairs _ _ w) e m -> NoDup (cids e) -> In c (cids e) ->
  nth_error (pairs _ _ w) c = Some (k, s0) ->
  world_ok (mkworld _ _ (set_pair K V (pairs _ _ w) c v) (envs _ _ w) (refs _ _ w))
           (mkspec _ _ (upd i (sset m k v) (senvs _ _ s)) (srefs _ _ s)).
Proof.
  intros W Hi Hm E N Hc Hn.
  assert (U : upd i e (envs _ _ w) = envs _ _ w).
  { clear - Hi. revert i Hi. induction (envs _ _ w) as [|a l IH]; intros [|i] Hi; simpl in *; try discriminate.
    - congruence. - f_equal; auto. }
  rewrite <- U at 1.
  apply (world_put w s i e m _ e _ []); auto.
  - eapply set_env_ok; eauto.
  - constructor.
  - intros d [].
  - intros d Hd. apply set_pair_keyof.
  - intros d Hd Hnd. rewrite (set_pair_nth _ _ _ _ _ _ Hn). destruct (Nat.eqb_spec c d); auto. subst; tauto.
Qed.

Lemma put_insert w s i e m k v : world_ok w s -> nth_error (envs _ _ w) i = Some e ->
  nth_error (senvs _ _ s) i = Some m -> env_ok (pairs _ _ w) e m -> sget m k = None ->
  (4 * N.of_nat (length m) <= 4611686018427388039)%N ->
  exists e', env_insert K V eq_hash (pairs _ _ w) e k v = Some (pairs _ _ w ++ [(k, v)], e', length (pairs _ _ w)) /\
    world_ok (mkworld _ _ (pairs _ _ w ++ [(k, v)]) (upd i e' (envs _ _ w)) (refs _ _ w))
             (mkspec _ _ (upd i (sset m k v) (senvs _ _ s)) (srefs _ _ s)) /\
    In (length (pairs _ _ w)) (cids e').
Proof.
  intros W Hi Hm E Hg Hb. destruct (env_insert_ok _ _ _ k v E Hg Hb) as (e' & R1 & R2 & R3).
  exists e'. split; auto. split.
  - apply (world_put w s i e m _ e' _ [length (pairs _ _ w)]); auto.
    + unfold aset. rewrite Hg. exact R2.
    + constructor; [intros []|constructor].
    + intros c [<-|[]]; lia.
    + intros c Hc. apply keyof_app; auto.
    + intros c Hc _. apply nth_app_lt; auto.
  - rewrite R3. left; auto.
Qed.

Lemma step_refines w s o s' x n : world_ok w s -> small s n -> (N.of_nat n < 2 ^ 59)%N -> op_ok o ->
  sp_step K V keqb s o = Some (s', x) ->
  small s' (S n) /\ exists w' y, estep K V eq_hash keqb w o = Some (w', y) /\ out_eq y x /\ world_ok w' s'.
Proof.
  intros W Hs Hn Ho H.
  assert (Hsm : forall i m, nth_error (senvs _ _ s) i = Some m -> length m <= n).
  { intros i m Hm. unfold small in Hs. rewrite Forall_forall in Hs. apply Hs. eapply nth_error_In; eauto. }
  assert (Hw : small s (S n)) by (eapply Forall_impl; [|exact Hs]; cbn beta; intros; lia).
  destruct o as [|i k v|i k v|i k|i|i k|r|r v|i mut syms|i mut]; cbn [sp_step] in H; cbn [estep].
  - injection H as <- <-. split.
    { apply Forall_app; split; auto. constructor; [simpl; lia|constructor]. }
    destruct (make_env_ok (pairs _ _ w ++ []) 0) as (e & -> & E & Ec); [lia|].
    rewrite (Forall2_len _ _ _ (wo_envs _ _ W)).
    eexists _, _. split; [reflexivity|]. split; [reflexivity|].
    rewrite <- (app_nil_r (pairs _ _ w)). apply (world_add w s [] e [] []); auto.
    + unfold cids. rewrite Ec. reflexivity.
    + constructor.
    + intros c [].
  - destruct (nth_error (senvs _ _ s) i) as [m|] eqn:Hm; [|discriminate]. injection H as <- <-.
    destruct (world_env _ _ _ _ W Hm) as (e & He & E & N). rewrite He.
    split. { apply Forall_upd; auto. etransitivity; [apply sset_length|]. apply le_n_S; eauto. }
    unfold env_set. pose proof (env_find_ok _ _ _ k E) as F.
    destruct (sget m k) as [s0|] eqn:G.
    + destruct F as (c & F1 & F2 & F3). rewrite F1. eexists _, _. split; [reflexivity|]. split; [reflexivity|].
      assert (U : upd i e (envs _ _ w) = envs _ _ w).
      { clear - He. revert i He. induction (envs _ _ w) as [|a l IH]; intros [|i] Hi; simpl in *; try discriminate.
        - congruence. - f_equal; auto. }
      rewrite U. eapply put_set; eauto. apply in_map; auto.
    + rewrite F. destruct (put_insert w s i e m k (Some v)) as (e' & R1 & R2 & R3); auto.
      { specialize (Hsm _ _ Hm). lia. }
      rewrite R1. eexists _, _. split; [reflexivity|]. split; [reflexivity|auto].
  - destruct (nth_error (senvs _ _ s) i) as [m|] eqn:Hm; [|discriminate].
    destruct (world_env _ _ _ _ W Hm) as (e & He & E & N). rewrite He.
    pose proof (env_find_ok _ _ _ k E) as F.
    destruct (sget m k) as [s0|] eqn:G; [|discriminate]. injection H as <- <-.
    split. { apply Forall_upd; auto. etransitivity; [apply sset_length|]. apply le_n_S; eauto. }
    destruct F as (c & F1 & F2 & F3). rewrite F1. eexists _, _. split; [reflexivity|]. split; [reflexivity|].
    eapply put_set; eauto. apply in_map; auto.
  - destruct (nth_error (senvs _ _ s) i) as [m|] eqn:Hm; [|discriminate]. injection H as <- <-.
    destruct (world_env _ _ _ _ W Hm) as (e & He & E & N). rewrite He. split; auto.
    pose proof (env_find_ok _ _ _ k E) as F.
    destruct (sget m k) as [s0|] eqn:G.
    + destruct F as (c & F1 & F2 & F3). rewrite F1, F3. eexists _, _. split; [reflexivity|]. split; auto.
      destruct s0; reflexivity.
    + rewrite F. eexists _, _. split; [reflexivity|]. split; auto. reflexivity.
  - destruct (nth_error (senvs _ _ s) i) as [m|] eqn:Hm; [|discriminate]. injection H as <- <-.
    destruct (world_env _ _ _ _ W Hm) as (e & He & E & N). rewrite He. split; auto.
    eexists _, _. split; [reflexivity|]. split; auto. simpl. apply env_symbols_ok; auto.
  - destruct (nth_error (senvs _ _ s) i) as [m|] eqn:Hm; [|discriminate]. injection H as <- <-.
    destruct (world_env _ _ _ _ W Hm) as (e & He & E & N). rewrite He.
    assert (Lr : length (srefs _ _ s) = length (refs _ _ w)) by (symmetry; eapply Forall2_len; apply (wo_refs _ _ W)).
    split.
    { apply Forall_upd; auto. destruct (sget m k); [specialize (Hsm _ _ Hm); lia|].
      etransitivity; [apply sset_length|]. apply le_n_S; eauto. }
    unfold env_cell. pose proof (env_find_ok _ _ _ k E) as F.
    assert (Addref : forall w1 s1 c e1, world_ok w1 s1 -> nth_error (envs _ _ w1) i = Some e1 -> In c (cids e1) ->
              keyof (pairs _ _ w1) c = Some k ->
              world_ok (mkworld _ _ (pairs _ _ w1) (envs _ _ w1) (refs _ _ w1 ++ [c])) (mkspec _ _ (senvs _ _ s1) (srefs _ _ s1 ++ [(i, k)]))).
    { intros w1 s1 c e1 W1 H1 H2 H3. destruct W1. constructor; auto. cbn [refs srefs pairs envs].
      apply Forall2_app; auto. constructor; [|constructor]. exists e1. auto. }
    destruct (sget m k) as [s0|] eqn:G.
    + destruct F as (c & F1 & F2 & F3). rewrite F1. eexists _, _. split; [reflexivity|].
      split; [rewrite Lr; reflexivity|].
      assert (Us : upd i m (senvs _ _ s) = senvs _ _ s).
      { clear - Hm. revert i Hm. induction (senvs _ _ s) as [|a l IH]; intros [|i] Hi; simpl in *; try discriminate.
        - congruence. - f_equal; auto. }
      assert (U : upd i e (envs _ _ w) = envs _ _ w).
      { clear - He. revert i He. induction (envs _ _ w) as [|a l IH]; intros [|i] Hi; simpl in *; try discriminate.
        - congruence. - f_equal; auto. }
      rewrite Us, U. eapply Addref; eauto. { apply in_map; auto. } unfold keyof. rewrite F3; reflexivity.
    + rewrite F. destruct (put_insert w s i e m k None) as (e' & R1 & R2 & R3); auto.
      { specialize (Hsm _ _ Hm). lia. }
      rewrite R1. eexists _, _. split; [reflexivity|]. split; [rewrite Lr; reflexivity|].
      apply (Addref _ _ (length (pairs _ _ w)) e') in R2; auto.
      * cbn [envs]. eapply nth_upd_some; eauto.
      * cbn [pairs]. unfold keyof. rewrite nth_error_app2, Nat.sub_diag by lia. reflexivity.
  - destruct (nth_error (srefs _ _ s) r) as [[i k]|] eqn:Hr; [|discriminate].
    destruct (nth_error (senvs _ _ s) i) as [m|] eqn:Hm; [|discriminate].
    destruct (sget m k) as [s0|] eqn:G; [|discriminate]. injection H as <- <-. split; auto.
    destruct (Forall2_nth_r _ _ _ _ _ (wo_refs _ _ W) Hr) as (c & Hc & e & He & Hin & Hk). cbn [fst snd] in *.
    destruct (world_env _ _ _ _ W Hm) as (e' & He' & E & N). rewrite He in He'. injection He' as <-.
    rewrite Hc. apply in_map_iff in Hin as (c0 & <- & Hin).
    destruct (eo_cell _ _ _ _ E Hin) as (k' & s' & C1 & _ & C3 & _).
    unfold keyof in Hk. rewrite C1 in Hk. injection Hk as ->. rewrite C1.
    apply (sget_in m k s' (eo_keys _ _ _ E)) in C3. rewrite G in C3. injection C3 as ->.
    eexists _, _. split; [reflexivity|]. split; auto. destruct s'; reflexivity.
  - destruct (nth_error (srefs _ _ s) r) as [[i k]|] eqn:Hr; [|discriminate].
    destruct (nth_error (senvs _ _ s) i) as [m|] eqn:Hm; [|discriminate]. injection H as <- <-.
    split. { apply Forall_upd; auto. etransitivity; [apply sset_length|]. apply le_n_S; eauto. }
    destruct (Forall2_nth_r _ _ _ _ _ (wo_refs _ _ W) Hr) as (c & Hc & e & He & Hin & Hk). cbn [fst snd] in *.
    destruct (world_env _ _ _ _ W Hm) as (e' & He' & E & N). rewrite He in He'. injection He' as <-.
    rewrite Hc. unfold keyof in Hk. destruct (nth_error (pairs _ _ w) c) as [[k' s']|] eqn:C1; [|discriminate].
    injection Hk as ->. eexists _, _. split; [reflexivity|]. split; [reflexivity|]. eapply put_set; eauto.
  - destruct (nth_error (senvs _ _ s) i) as [m|] eqn:Hm; [|discriminate]. injection H as <- <-.
    destruct (world_env _ _ _ _ W Hm) as (e & He & E & N). rewrite He. destruct Ho as [Hnd Hsz].
    split.
    { apply Forall_app; split; auto. constructor; [|constructor]. etransitivity; [apply restrict_length; auto|].
      - apply (eo_keys _ _ _ E). - specialize (Hsm _ _ Hm). lia. }
    unfold env_copy2. destruct (make_env_ok (pairs _ _ w) (N.of_nat (length syms))) as (e2 & -> & E2 & Ec); [lia|].
    destruct (copy_syms_ok e mut m syms (pairs _ _ w) e2 []) as (ps' & e2' & new & R1 & R2 & R3 & R4); auto.
    rewrite R1. rewrite (Forall2_len _ _ _ (wo_envs _ _ W)).
    eexists _, _. split; [reflexivity|]. split; [reflexivity|].
    apply (world_add w s ps' e2' _ new); auto.
    + eapply env_ok_perm; [exact R2|]. rewrite app_nil_r, <- Permutation_rev. reflexivity.
    + rewrite R3. unfold cids. rewrite Ec. simpl. rewrite app_nil_r. reflexivity.
    + rewrite R4. apply NoDup_rev, seq_NoDup.
    + intros c Hc. rewrite R4 in Hc. apply in_rev, in_seq in Hc. lia.
  - destruct (nth_error (senvs _ _ s) i) as [m|] eqn:Hm; [|discriminate]. injection H as <- <-.
    destruct (world_env _ _ _ _ W Hm) as (e & He & E & N). rewrite He.
    split. { apply Forall_app; split; auto. constructor; [|constructor]. specialize (Hsm _ _ Hm). lia. }
    destruct (env_copy_ok _ _ _ mut E) as (kvs & e2 & R1 & R2 & R3). rewrite R1.
    rewrite (Forall2_len _ _ _ (wo_envs _ _ W)).
    eexists _, _. split; [reflexivity|]. split; [reflexivity|].
    apply (world_add w s kvs e2 _ (cids e2)); auto.
    + rewrite R3. apply seq_NoDup.
    + intros c Hc. rewrite R3 in Hc. apply in_seq in Hc. lia.
Qed.

Lemma run_refines : forall os w s s' xs n, world_ok w s -> small s n ->
  (N.of_nat (n + length os) < 2 ^ 59)%N -> Forall op_ok os ->
  sp_run K V keqb s os = Some (s', xs) ->
  exists w' ys, erun K V eq_hash keqb w os = Some (w', ys) /\ Forall2 out_eq ys xs /\ world_ok w' s'.
Proof.
  induction os as [|o os IH]; intros w s s' xs n W Hs Hn Ho H; cbn [sp_run] in H; cbn [erun].
  - injection H as <- <-. exists w, []. auto.
  - destruct (sp_step K V keqb s o) as [[s1 x]|] eqn:E1; [|discriminate].
    destruct (sp_run K V keqb s1 os) as [[s2 xs2]|] eqn:E2; [|discriminate]. injection H as <- <-.
    inversion Ho; subst. simpl in Hn.
    destruct (step_refines w s o s1 x n) as (Hs1 & w1 & y & R1 & R2 & R3); auto; [lia|].
    destruct (IH w1 s1 s2 xs2 (S n)) as (w2 & ys & Q1 & Q2 & Q3); auto; [lia|].
    rewrite R1, Q1. eexists _, _. split; [reflexivity|]. split; auto.
Qed.

Lemma world0_ok : world_ok (world0 K V) (spec0 K V).
Proof. constructor; simpl; constructor. Qed.

Theorem refines os s xs : (N.of_nat (length os) < 2 ^ 59)%N -> Forall op_ok os ->
  sp_run K V keqb (spec0 K V) os = Some (s, xs) ->
  exists w ys, erun K V eq_hash keqb (world0 K V) os = Some (w, ys) /\ Forall2 out_eq ys xs.
Proof.
  intros Hn Ho H. destruct (run_refines os (world0 K V) (spec0 K V) s xs 0) as (w & ys & R1 & R2 & _); auto.
  - apply world0_ok. - constructor. - eauto.
Qed.

(** ** Observing one more operation at the end of a history *)
Notation erun0 os := (erun K V eq_hash keqb (world0 K V) os).
Notation sp_run0 os := (sp_run K V keqb (spec0 K V) os).

(** What operation [o] returns after history [os]. *)
Definition observe (os : list (eop K V)) (o : eop K V) : option (eout K V) :=
  match erun0 (os ++ [o]) with
  | Some (_, ys) => nth_error ys (length os)
  | None => None
  end.

(** The history names only environments and references that exist, assigns only
    existing variables, copies without duplicate names, and is not astronomically
    long. *)
Definition legal (os : list (eop K V)) : Prop :=
  (exists s xs, sp_run0 os = Some (s, xs)) /\ Forall op_ok os /\ (N.of_nat (length os) < 2 ^ 58)%N.

(** The variable captured by the [r]-th capture of a history. *)
Fixpoint captures (os : list (eop K V)) : list (nat * K) :=
  match os with
  | [] => []
  | ERef _ _ i k :: r => (i, k) :: captures r
  | _ :: r => captures r
  end.

(** Operation [o], given the captures so far, may change environment [i]. *)
Definition stores_to (caps : list (nat * K)) (o : eop K V) (i : nat) : Prop :=
  match o with
  | ESet _ _ j _ _ | EAssign _ _ j _ _ | ERef _ _ j _ => j = i
  | ERefSet _ _ r _ => exists k, nth_error caps r = Some (i, k)
  | _ => False
  end.

Lemma sp_run_app os1 : forall os2 s s' xs, sp_run K V keqb s (os1 ++ os2) = Some (s', xs) ->
  exists s1 xs1 xs2, sp_run K V keqb s os1 = Some (s1, xs1) /\ sp_run K V keqb s1 os2 = Some (s', xs2) /\ xs = xs1 ++ xs2.
Proof.
  induction os1 as [|o r IH]; intros os2 s s' xs H; cbn [sp_run app] in *.
  - exists s, [], xs. auto.
  - destruct (sp_step K V keqb s o) as [[s1 x]|]; [|discriminate].
    destruct (sp_run K V keqb s1 (r ++ os2)) as [[s2 ys]|] eqn:E2; [|discriminate]. injection H as <- <-.
    destruct (IH _ _ _ _ E2) as (s0 & x1 & x2 & H1 & H2 & ->).
    exists s0, (x :: x1), x2. rewrite H1. auto.
Qed.
Lemma sp_run_app_intro os1 : forall os2 s s1 s' xs1 xs2, sp_run K V keqb s os1 = Some (s1, xs1) ->
  sp_run K V keqb s1 os2 = Some (s', xs2) -> sp_run K V keqb s (os1 ++ os2) = Some (s', xs1 ++ xs2).
Proof.
  induction os1 as [|o r IH]; intros os2 s s1 s' xs1 xs2 H1 H2; cbn [sp_run app] in *.
  - injection H1 as <- <-. auto.
  - destruct (sp_step K V keqb s o) as [[s0 x]|]; [|discriminate].
    destruct (sp_run K V keqb s0 r) as [[s2 ys]|] eqn:E; [|discriminate]. injection H1 as <- <-.
    rewrite (IH _ _ _ _ _ _ E H2). auto.
Qed.
Lemma sp_run_length os : forall s s' xs, sp_run K V keqb s os = Some (s', xs) -> length xs = length os.
Proof.
  induction os as [|o r IH]; intros s s' xs H; cbn [sp_run] in H.
  - injection H as <- <-; auto.
  - destruct (sp_step K V keqb s o) as [[s0 x]|]; [|discriminate].
    destruct (sp_run K V keqb s0 r) as [[s2 ys]|] eqn:E; [|discriminate]. injection H as <- <-. simpl. erewrite IH; eauto.
Qed.

Lemma observe_spec os o s xs s' x : legal os -> op_ok o -> sp_run0 os = Some (s, xs) ->
  sp_step K V keqb s o = Some (s', x) -> exists y, observe os o = Some y /\ out_eq y x.
Proof.
  intros (_ & Ho & Hn) Hok R S.
  assert (R' : sp_run0 (os ++ [o]) = Some (s', xs ++ [x])).
  { eapply sp_run_app_intro; [exact R|]. cbn [sp_run]. rewrite S. reflexivity. }
  destruct (refines (os ++ [o]) s' (xs ++ [x])) as (w & ys & E & F); auto.
  - rewrite app_length; simpl; lia.
  - apply Forall_app; auto.
  - unfold observe. rewrite E.
    destruct (Forall2_nth_r _ _ _ (length os) x F) as (y & Hy & Q).
    + rewrite <- (sp_run_length _ _ _ _ R), nth_error_app2, Nat.sub_diag by lia. reflexivity.
    + eauto.
Qed.

Lemma out_eq_val (y x : eout K V) : out_eq y x -> (forall l, x <> XNames _ _ l) -> y = x.
Proof. destruct y, x; simpl; auto; intros _ H; exfalso; eapply H; reflexivity. Qed.
Lemma xval_not_names s0 l : xval K V s0 <> XNames _ _ l.
Proof. destruct s0; discriminate. Qed.

Lemma observe_get os s xs i k m : legal os -> sp_run0 os = Some (s, xs) -> nth_error (senvs _ _ s) i = Some m ->
  observe os (EGet _ _ i k) = Some match sget m k with Some x => xval K V x | None => XMissing K V end.
Proof.
  intros L R Hm. destruct (observe_spec os (EGet _ _ i k) s xs s (match sget m k with Some x => xval K V x | None => XMissing K V end))
    as (y & Hy & Q); auto.
  - exact I.
  - cbn [sp_step]. rewrite Hm. reflexivity.
  - rewrite Hy. f_equal. apply out_eq_val; auto. intros l. destruct (sget m k); [apply xval_not_names|discriminate].
Qed.
Lemma observe_refget os s xs r i k m s0 : legal os -> sp_run0 os = Some (s, xs) -> nth_error (srefs _ _ s) r = Some (i, k) ->
  nth_error (senvs _ _ s) i = Some m -> sget m k = Some s0 ->
  observe os (ERefGet _ _ r) = Some (xval K V s0).
Proof.
  intros L R Hr Hm Hg. destruct (observe_spec os (ERefGet _ _ r) s xs s (xval K V s0)) as (y & Hy & Q); auto.
  - exact I.
  - cbn [sp_step]. rewrite Hr, Hm, Hg. reflexivity.
  - rewrite Hy. f_equal. apply out_eq_val; auto. apply xval_not_names.
Qed.

(** Captures are recorded in order and never forgotten. *)
Lemma sp_step_refs s o s' x : sp_step K V keqb s o = Some (s', x) ->
  srefs _ _ s' = srefs _ _ s ++ match o with ERef _ _ i k => [(i, k)] | _ => [] end.
Proof.
  destruct o; cbn [sp_step]; intros H;
    repeat match type of H with
           | match ?d with _ => _ end = _ => destruct d eqn:?; try discriminate
           | (let '(_, _) := ?d in _) = _ => destruct d
           end; injection H as <- <-; cbn [srefs]; rewrite ?app_nil_r; auto.
Qed.
Lemma sp_run_refs os : forall s s' xs, sp_run K V keqb s os = Some (s', xs) -> srefs _ _ s' = srefs _ _ s ++ captures os.
Proof.
  induction os as [|o r IH]; intros s s' xs H; cbn [sp_run] in H.
  - injection H as <- <-. simpl. rewrite app_nil_r; auto.
  - destruct (sp_step K V keqb s o) as [[s1 x]|] eqn:E1; [|discriminate].
    destruct (sp_run K V keqb s1 r) as [[s2 ys]|] eqn:E2; [|discriminate]. injection H as <- <-.
    rewrite (IH _ _ _ E2), (sp_step_refs _ _ _ _ E1), <- app_assoc. destruct o; reflexivity.
Qed.

(** Captured variables stay present. *)
Definition refs_live (s : spec) : Prop := forall r i k, nth_error (srefs _ _ s) r = Some (i, k) ->
  exists m s0, nth_error (senvs _ _ s) i = Some m /\ sget m k = Some s0.

Lemma live_upd (es : list (list (K * slotv))) i m m' j k s0 : nth_error es i = Some m ->
  (forall k s0, sget m k = Some s0 -> exists s1, sget m' k = Some s1) ->
  (exists m0, nth_error es j = Some m0 /\ sget m0 k = Some s0) ->
  exists m0 s1, nth_error (upd i m' es) j = Some m0 /\ sget m0 k = Some s1.
Proof.
  intros Hi Hk (m0 & H1 & H2). destruct (Nat.eq_dec i j) as [<-|Hn].
  - rewrite Hi in H1. injection H1 as ->. destruct (Hk _ _ H2) as (s1 & Hs).
    exists m', s1. split; auto. eapply nth_upd_some; eauto.
  - exists m0, s0. rewrite nth_upd_ne; auto.
Qed.
Lemma sset_keeps m k v : forall k' s0, sget m k' = Some s0 -> exists s1, sget (sset m k v) k' = Some s1.
Proof. intros k' s0 H. rewrite sget_sset. destruct keqb; eauto. Qed.

Lemma refs_live_step s o s' x : refs_live s -> sp_step K V keqb s o = Some (s', x) -> refs_live s'.
Proof.
  intros L H.
  assert (App : forall e r i k, nth_error (srefs _ _ s) r = Some (i, k) ->
            exists m s0, nth_error (senvs _ _ s ++ [e]) i = Some m /\ sget m k = Some s0).
  { intros e r i k Hr. destruct (L _ _ _ Hr) as (m & s0 & H1 & H2). exists m, s0. split; auto.
    rewrite nth_app_lt; auto. apply nth_error_Some. congruence. }
  assert (Upd : forall j m m' r i k, nth_error (senvs _ _ s) j = Some m ->
            (forall k s0, sget m k = Some s0 -> exists s1, sget m' k = Some s1) ->
            nth_error (srefs _ _ s) r = Some (i, k) ->
            exists m0 s1, nth_error (upd j m' (senvs _ _ s)) i = Some m0 /\ sget m0 k = Some s1).
  { intros j m m' r i k Hj Hk Hr. destruct (L _ _ _ Hr) as (m0 & s0 & H1 & H2). eapply live_upd; eauto. }
  destruct o as [|i k v|i k v|i k|i|i k|r|r v|i mut syms|i mut]; cbn [sp_step] in H.
  - injection H as <- <-. intros r i k. cbn [srefs senvs]. apply App.
  - destruct (nth_error (senvs _ _ s) i) as [m|] eqn:Hm; [|discriminate]. injection H as <- <-.
    intros r j k'. cbn [srefs senvs]. eapply Upd; eauto. apply sset_keeps.
  - destruct (nth_error (senvs _ _ s) i) as [m|] eqn:Hm; [|discriminate].
    destruct (sget m k); [|discriminate]. injection H as <- <-.
    intros r j k'. cbn [srefs senvs]. eapply Upd; eauto. apply sset_keeps.
  - destruct (nth_error (senvs _ _ s) i) as [m|] eqn:Hm; [|discriminate]. injection H as <- <-. exact L.
  - destruct (nth_error (senvs _ _ s) i) as [m|] eqn:Hm; [|discriminate]. injection H as <- <-. exact L.
  - destruct (nth_error (senvs _ _ s) i) as [m|] eqn:Hm; [|discriminate]. injection H as <- <-.
    intros r j k' Hr. cbn [srefs senvs] in *. apply nth_snoc_inv in Hr as [[_ Hr]|[_ Hr]].
    + eapply Upd; eauto. intros k0 s0 H0. destruct (sget m k) eqn:G; eauto. apply sset_keeps with (1 := H0).
    + injection Hr as -> ->.
      exists (match sget m k with Some _ => m | None => sset m k None end).
      destruct (sget m k) as [s0|] eqn:G.
      * exists s0. split; auto. eapply nth_upd_some; eauto.
      * exists None. rewrite sget_sset. assert (keqb k k = true) as -> by (apply keqb_spec; auto).
        split; auto. eapply nth_upd_some; eauto.
  - destruct (nth_error (srefs _ _ s) r) as [[i k]|]; [|discriminate].
    destruct (nth_error (senvs _ _ s) i) as [m|]; [|discriminate].
    destruct (sget m k); [|discriminate]. injection H as <- <-. exact L.
  - destruct (nth_error (srefs _ _ s) r) as [[i k]|]; [|discriminate].
    destruct (nth_error (senvs _ _ s) i) as [m|] eqn:Hm; [|discriminate]. injection H as <- <-.
    intros r' j k'. cbn [srefs senvs]. eapply Upd; eauto. apply sset_keeps.
  - destruct (nth_error (senvs _ _ s) i) as [m|] eqn:Hm; [|discriminate]. injection H as <- <-.
    intros r j k'. cbn [srefs senvs]. apply App.
  - destruct (nth_error (senvs _ _ s) i) as [m|] eqn:Hm; [|discriminate]. injection H as <- <-.
    intros r j k'. cbn [srefs senvs]. apply App.
Qed.
Lemma refs_live_run os : forall s s' xs, refs_live s -> sp_run K V keqb s os = Some (s', xs) -> refs_live s'.
Proof.
  induction os as [|o r IH]; intros s s' xs L H; cbn [sp_run] in H.
  - injection H as <- <-. auto.
  - destruct (sp_step K V keqb s o) as [[s1 x]|] eqn:E1; [|discriminate].
    destruct (sp_run K V keqb s1 r) as [[s2 ys]|] eqn:E2; [|discriminate]. injection H as <- <-.
    eapply IH; [|exact E2]. eapply refs_live_step; eauto.
Qed.
Lemma refs_live0 : refs_live (spec0 K V).
Proof. intros [|r]; discriminate. Qed.

(** Reading through a capture is reading the variable. *)
Theorem capture_reads os r i k : legal os -> nth_error (captures os) r = Some (i, k) ->
  exists y, observe os (ERefGet _ _ r) = Some y /\ observe os (EGet _ _ i k) = Some y.
Proof.
  intros L Hr. destruct L as ((s & xs & R) & Ho & Hn).
  assert (L : legal os) by (split; eauto).
  pose proof (sp_run_refs _ _ _ _ R) as Hrefs. cbn [srefs spec0 app] in Hrefs. rewrite <- Hrefs in Hr.
  destruct (refs_live_run _ _ _ _ refs_live0 R _ _ _ Hr) as (m & s0 & Hm & Hg).
  exists (xval K V s0). split; [eapply observe_refget; eauto|].
  rewrite (observe_get _ _ _ _ _ _ L R Hm), Hg. reflexivity.
Qed.

Lemma legal_snoc os o s xs s' x : legal os -> (N.of_nat (S (length os)) < 2 ^ 58)%N -> op_ok o ->
  sp_run0 os = Some (s, xs) -> sp_step K V keqb s o = Some (s', x) ->
  legal (os ++ [o]) /\ sp_run0 (os ++ [o]) = Some (s', xs ++ [x]).
Proof.
  intros (_ & Ho & _) Hn Hok R S.
  assert (R' : sp_run0 (os ++ [o]) = Some (s', xs ++ [x])).
  { eapply sp_run_app_intro; [exact R|]. cbn [sp_run]. rewrite S. reflexivity. }
  split; auto. split; [eauto|]. split; [apply Forall_app; auto|]. rewrite app_length. simpl. lia.
Qed.

(** Storing through a capture is storing to the variable. *)
Theorem capture_writes os r i k v : legal (os ++ [ERefSet _ _ r v]) -> nth_error (captures os) r = Some (i, k) ->
  observe (os ++ [ERefSet _ _ r v]) (EGet _ _ i k) = Some (XVal _ _ v).
Proof.
  intros L Hr. destruct L as ((s & xs & R) & Ho & Hn).
  assert (L : legal (os ++ [ERefSet _ _ r v])) by (split; eauto).
  destruct (sp_run_app _ _ _ _ _ R) as (s1 & xs1 & xs2 & R1 & R2 & ->).
  pose proof (sp_run_refs _ _ _ _ R1) as Hrefs. cbn [srefs spec0 app] in Hrefs. rewrite <- Hrefs in Hr.
  cbn [sp_run sp_step] in R2. rewrite Hr in R2.
  destruct (nth_error (senvs _ _ s1) i) as [m|] eqn:Hm; [|discriminate]. injection R2 as <- <-.
  rewrite (observe_get _ _ _ i k (sset m k (Some v)) L R).
  - rewrite sget_sset. assert (keqb k k = true) as -> by (apply keqb_spec; auto). reflexivity.
  - cbn [senvs]. eapply nth_upd_some; eauto.
Qed.

(** Reading after a store. *)
Theorem get_after_set os i k k' v : legal (os ++ [ESet _ _ i k v]) ->
  observe (os ++ [ESet _ _ i k v]) (EGet _ _ i k') =
    if keqb k k' then Some (XVal _ _ v) else observe os (EGet _ _ i k').
Proof.
  intros L. destruct L as ((s & xs & R) & Ho & Hn).
  assert (L : legal (os ++ [ESet _ _ i k v])) by (split; eauto).
  destruct (sp_run_app _ _ _ _ _ R) as (s1 & xs1 & xs2 & R1 & R2 & ->).
  cbn [sp_run sp_step] in R2.
  destruct (nth_error (senvs _ _ s1) i) as [m|] eqn:Hm; [|discriminate]. injection R2 as <- <-.
  assert (L1 : legal os).
  { split; [eauto|]. split; [apply Forall_app in Ho; tauto|]. rewrite app_length in Hn. lia. }
  rewrite (observe_get _ _ _ i k' (sset m k (Some v)) L R).
  - rewrite sget_sset. destruct (keqb k k'); auto. rewrite (observe_get _ _ _ _ _ _ L1 R1 Hm). reflexivity.
  - cbn [senvs]. eapply nth_upd_some; eauto.
Qed.

(** Operations that do not store to [i] leave environment [i] alone. *)
Lemma step_untouched s o s' x i m : sp_step K V keqb s o = Some (s', x) ->
  ~ stores_to (srefs _ _ s) o i -> nth_error (senvs _ _ s) i = Some m -> nth_error (senvs _ _ s') i = Some m.
Proof.
  intros H Hn Hm.
  assert (Li : i < length (senvs _ _ s)) by (apply nth_error_Some; congruence).
  destruct o as [|j k v|j k v|j k|j|j k|r|r v|j mut syms|j mut]; cbn [sp_step stores_to] in *;
    repeat match type of H with
           | match ?d with _ => _ end = _ => destruct d eqn:?; try discriminate
           | (let '(_, _) := ?d in _) = _ => destruct d
           end; injection H as <- <-; cbn [senvs]; auto;
    try (rewrite nth_upd_ne; auto); try (rewrite nth_app_lt; auto).
  intros ->. apply Hn. eauto.
Qed.

Lemma run_untouched i m : forall os2 s1 s xs2 caps, sp_run K V keqb s1 os2 = Some (s, xs2) ->
  caps = srefs _ _ s1 ++ captures os2 -> (forall o, In o os2 -> ~ stores_to caps o i) ->
  nth_error (senvs _ _ s1) i = Some m -> nth_error (senvs _ _ s) i = Some m.
Proof.
  induction os2 as [|o r IH]; intros s1 s xs2 caps R2 Hc Hno Hm; cbn [sp_run] in R2.
  - injection R2 as <- <-. auto.
  - destruct (sp_step K V keqb s1 o) as [[sa x]|] eqn:E1; [|discriminate].
    destruct (sp_run K V keqb sa r) as [[sb ys]|] eqn:E2; [|discriminate]. injection R2 as <- <-.
    apply (IH sa sb ys caps); auto.
    + rewrite Hc, (sp_step_refs _ _ _ _ E1), <- app_assoc. destruct o; reflexivity.
    + intros o' Ho'. apply Hno. right; auto.
    + eapply step_untouched; eauto. intros St. apply (Hno o (or_introl eq_refl)).
      destruct o; cbn [stores_to] in *; auto. destruct St as (k0 & St). exists k0.
      rewrite Hc, nth_app_lt; auto. apply nth_error_Some. congruence.
Qed.

Lemma erun_snoc o : forall os w0 w1 ys, erun K V eq_hash keqb w0 os = Some (w1, ys) ->
  erun K V eq_hash keqb w0 (os ++ [o]) =
  match estep K V eq_hash keqb w1 o with Some (w2, y) => Some (w2, ys ++ [y]) | None => None end.
Proof.
  induction os as [|o' r IH]; intros w0 w1 ys H; cbn [erun app] in *.
  - injection H as <- <-. destruct estep as [[]|]; auto.
  - destruct (estep K V eq_hash keqb w0 o') as [[wa y]|]; [|discriminate].
    destruct (erun K V eq_hash keqb wa r) as [[wb yb]|] eqn:E; [|discriminate]. injection H as <- <-.
    rewrite (IH _ _ _ E). destruct estep as [[]|]; auto.
Qed.

Theorem isolation os1 os2 i k : legal (os1 ++ os2) ->
  (forall o, In o os2 -> ~ stores_to (captures (os1 ++ os2)) o i) ->
  observe os1 (EGet _ _ i k) <> None ->
  observe (os1 ++ os2) (EGet _ _ i k) = observe os1 (EGet _ _ i k).
Proof.
  intros L Hno Hex. pose proof L as ((s & xs & R) & Ho & Hn).
  destruct (sp_run_app _ _ _ _ _ R) as (s1 & xs1 & xs2 & R1 & R2 & ->).
  assert (L1 : legal os1).
  { split; [eauto|]. split; [apply Forall_app in Ho; tauto|]. rewrite app_length in Hn. lia. }
  destruct (nth_error (senvs _ _ s1) i) as [m|] eqn:Hm.
  2: { exfalso. apply Hex. unfold observe.
       destruct (run_refines os1 (world0 K V) (spec0 K V) s1 xs1 0) as (w & ys & E1 & _ & W); auto.
       - apply world0_ok. - constructor. - rewrite app_length in Hn. simpl. lia. - apply Forall_app in Ho; tauto.
       - assert (nth_error (envs _ _ w) i = None) as Hi.
         { apply nth_error_None. rewrite (Forall2_len _ _ _ (wo_envs _ _ W)). apply nth_error_None; auto. }
         rewrite (erun_snoc _ _ _ _ _ E1). cbn [estep]. rewrite Hi. reflexivity. }
  assert (Hm' : nth_error (senvs _ _ s) i = Some m).
  { apply (run_untouched i m os2 s1 s xs2 (captures (os1 ++ os2))); auto. pose proof (sp_run_refs _ _ _ _ R) as Q. cbn [srefs spec0 app] in Q.
    rewrite <- Q, (sp_run_refs _ _ _ _ R2). reflexivity. }
  rewrite (observe_get _ _ _ _ _ _ L R Hm'), (observe_get _ _ _ _ _ _ L1 R1 Hm). reflexivity.
Qed.

(** What a copy contains. *)
Lemma sget_restrict m syms k : NoDup (map fst m) -> NoDup syms ->
  (In k syms -> sget (restrict m syms) k = sget m k) /\ (~ In k syms -> sget (restrict m syms) k = None).
Proof.
  intros N Ns. split.
  - induction syms as [|a syms IH]; intros Hin; [destruct Hin|]. inversion Ns; subst.
    unfold Env.restrict; cbn [flat_map]. fold (restrict m syms).
    destruct (sget m a) as [x|] eqn:G.
    + simpl. destruct (keqb a k) eqn:Q.
      * apply keqb_spec in Q; subst; auto.
      * apply IH; auto. destruct Hin as [->|]; auto.
        assert (keqb k k = true) by (apply keqb_spec; auto). congruence.
    + simpl. destruct Hin as [->|]; [|apply IH; auto].
      rewrite G. apply sget_none. intros H. apply restrict_keys in H. auto.
  - intros Hn. apply sget_none. intros H. apply Hn. eapply restrict_keys; eauto.
Qed.

Lemma spec_keys os s xs : legal os -> sp_run0 os = Some (s, xs) ->
  forall i m, nth_error (senvs _ _ s) i = Some m -> NoDup (map fst m).
Proof.
  intros (_ & Ho & Hn) R i m Hm.
  destruct (run_refines os (world0 K V) (spec0 K V) s xs 0) as (w & ys & E1 & _ & W); auto.
  - apply world0_ok. - constructor. - lia.
  - destruct (world_env _ _ _ _ W Hm) as (e & _ & E & _). apply (eo_keys _ _ _ E).
Qed.

(** The copy is a new environment [j]; it has the requested names that exist,
    with their current values. *)
Theorem copy_contents os i mut syms : legal (os ++ [ECopy _ _ i mut syms]) ->
  exists j, observe os (ECopy _ _ i mut syms) = Some (XEnv _ _ j) /\ observe os (ENames _ _ j) = None /\
  forall k, (In k syms -> observe (os ++ [ECopy _ _ i mut syms]) (EGet _ _ j k) = observe os (EGet _ _ i k)) /\
            (~ In k syms -> observe (os ++ [ECopy _ _ i mut syms]) (EGet _ _ j k) = Some (XMissing _ _)).
Proof.
  intros L. pose proof L as ((s & xs & R) & Ho & Hn).
  destruct (sp_run_app _ _ _ _ _ R) as (s1 & xs1 & xs2 & R1 & R2 & ->).
  assert (L1 : legal os).
  { split; [eauto|]. split; [apply Forall_app in Ho; tauto|]. rewrite app_length in Hn. lia. }
  cbn [sp_run] in R2.
  destruct (sp_step K V keqb s1 (ECopy _ _ i mut syms)) as [[sa x]|] eqn:S; [|discriminate].
  injection R2 as <- <-. pose proof S as S'. cbn [sp_step] in S.
  destruct (nth_error (senvs _ _ s1) i) as [m|] eqn:Hm; [|discriminate]. injection S as <- <-.
  exists (length (senvs _ _ s1)).
  assert (Hok : op_ok (ECopy _ _ i mut syms)).
  { apply Forall_app in Ho as [_ Ho]. inversion Ho; auto. }
  destruct (observe_spec _ _ _ _ _ _ L1 Hok R1 S') as (y & Hy & Q).
  split; [|split].
  - rewrite Hy. destruct y; simpl in Q; congruence.
  - unfold observe.
    destruct (run_refines os (world0 K V) (spec0 K V) s1 xs1 0) as (w & ys & E1 & _ & W); auto.
    { apply world0_ok. } { constructor. } { rewrite app_length in Hn. simpl. lia. } { apply Forall_app in Ho; tauto. }
    rewrite (erun_snoc _ _ _ _ _ E1). cbn [estep].
    assert (nth_error (envs _ _ w) (length (senvs _ _ s1)) = None) as ->.
    { apply nth_error_None. rewrite (Forall2_len _ _ _ (wo_envs _ _ W)). auto. }
    reflexivity.
  - intros k.
    destruct (sget_restrict m syms k (spec_keys _ _ _ L1 R1 _ _ Hm) (proj1 Hok)) as [G1 G2].
    assert (Hj : nth_error (senvs _ _ (mkspec K V (senvs K V s1 ++ [restrict m syms]) (srefs K V s1))) (length (senvs K V s1)) = Some (restrict m syms)).
    { cbn [senvs]. rewrite nth_error_app2, Nat.sub_diag by lia. reflexivity. }
    rewrite (observe_get _ _ _ _ k _ L R Hj), (observe_get _ _ _ _ k _ L1 R1 Hm).
    split; intros Hin.
    + rewrite G1; auto.
    + rewrite G2; auto.
Qed.

Theorem copy_all_contents os i mut : legal (os ++ [ECopyAll _ _ i mut]) ->
  exists j, observe os (ECopyAll _ _ i mut) = Some (XEnv _ _ j) /\ observe os (ENames _ _ j) = None /\
  forall k, observe (os ++ [ECopyAll _ _ i mut]) (EGet _ _ j k) = observe os (EGet _ _ i k).
Proof.
  intros L. pose proof L as ((s & xs & R) & Ho & Hn).
  destruct (sp_run_app _ _ _ _ _ R) as (s1 & xs1 & xs2 & R1 & R2 & ->).
  assert (L1 : legal os).
  { split; [eauto|]. split; [apply Forall_app in Ho; tauto|]. rewrite app_length in Hn. lia. }
  cbn [sp_run] in R2.
  destruct (sp_step K V keqb s1 (ECopyAll _ _ i mut)) as [[sa x]|] eqn:S; [|discriminate].
  injection R2 as <- <-. pose proof S as S'. cbn [sp_step] in S.
  destruct (nth_error (senvs _ _ s1) i) as [m|] eqn:Hm; [|discriminate]. injection S as <- <-.
  exists (length (senvs _ _ s1)).
  destruct (observe_spec os (ECopyAll _ _ i mut) _ _ _ _ L1 I R1 S') as (y & Hy & Q).
  split; [|split].
  - rewrite Hy. destruct y; simpl in Q; congruence.
  - unfold observe.
    destruct (run_refines os (world0 K V) (spec0 K V) s1 xs1 0) as (w & ys & E1 & _ & W); auto.
    { apply world0_ok. } { constructor. } { rewrite app_length in Hn. simpl. lia. } { apply Forall_app in Ho; tauto. }
    rewrite (erun_snoc _ _ _ _ _ E1). cbn [estep].
    assert (nth_error (envs _ _ w) (length (senvs _ _ s1)) = None) as ->.
    { apply nth_error_None. rewrite (Forall2_len _ _ _ (wo_envs _ _ W)). auto. }
    reflexivity.
  - intros k.
    assert (Hj : nth_error (senvs _ _ (mkspec K V (senvs K V s1 ++ [m]) (srefs K V s1))) (length (senvs K V s1)) = Some m).
    { cbn [senvs]. rewrite nth_error_app2, Nat.sub_diag by lia. reflexivity. }
    rewrite (observe_get _ _ _ _ k _ L R Hj), (observe_get _ _ _ _ k _ L1 R1 Hm). reflexivity.
Qed.
End EnvProofs.
