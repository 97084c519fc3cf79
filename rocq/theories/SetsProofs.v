(** Specification of sets by membership functions, and the proof that set.min
    implements it. *)
From Coq Require Import ZArith NArith Bool List Lia Permutation.
From Verif Require Import Base Hashtable HashtableProofs Sets.
Import ListNotations.

(** ** Specification *)

Section Spec.
Variable K : Type.
Variable equiv : K -> K -> bool.

(** A mathematical set: its membership function. *)
Definition mset := K -> bool.
Definition listed (xs : list K) : mset := fun x => existsb (fun y => equiv y x) xs.
Definition sub (f g : mset) : Prop := forall x, f x = true -> g x = true.
(** [xs] lists the elements of [f], each once. *)
Definition enumerates (xs : list K) (f : mset) : Prop :=
  ForallOrdPairs (fun a b => equiv a b = false) xs /\ forall x, f x = listed xs x.
Definition none : mset := fun _ => false.

Fixpoint get_all (fs : list mset) (is : list nat) : option (list mset) :=
  match is with
  | [] => Some []
  | i :: r => match nth_error fs i, get_all fs r with
              | Some f, Some gs => Some (f :: gs)
              | _, _ => None
              end
  end.

(** The sets after a call; calls with an argument that is not a set change
    nothing. *)
Definition spec_next (fs : list mset) (o : sop K) : list mset :=
  let change i g := match nth_error fs i with Some f => upd i (g f) fs | None => fs end in
  match o with
  | SMake _ xs => fs ++ [listed xs]
  | SCopy _ i => match nth_error fs i with Some f => fs ++ [f] | None => fs end
  | SAdd _ i x => change i (fun f y => equiv x y || f y)
  | SRemove _ i x => change i (fun f y => negb (equiv x y) && f y)
  | SClear _ i => change i (fun _ => none)
  | SUnion _ is => match get_all fs is with
                   | Some gs => fs ++ [fun x => existsb (fun g => g x) gs]
                   | None => fs
                   end
  | SIntersect _ is => match get_all fs is with
                       | Some [] => fs ++ [none]
                       | Some gs => fs ++ [fun x => forallb (fun g : mset => g x) gs]
                       | None => fs
                       end
  | SSubtract _ i js => match get_all fs (i :: js) with
                        | Some (f :: gs) => fs ++ [fun x => f x && negb (existsb (fun g => g x) gs)]
                        | _ => fs
                        end
  | SSymdiff _ i js => match get_all fs (i :: js) with
                       | Some (f :: gs) => fs ++ [fun x => fold_left xorb (map (fun g : mset => g x) gs) (f x)]
                       | _ => fs
                       end
  | _ => fs
  end.

(** What a call may return. *)
Definition spec_out (fs : list mset) (o : sop K) (r : sres K) : Prop :=
  let with1 i (P : mset -> Prop) := match nth_error fs i with Some f => P f | None => r = SNotASet K end in
  let with2 i j (P : mset -> mset -> Prop) :=
    match nth_error fs i, nth_error fs j with Some f, Some g => P f g | _, _ => r = SNotASet K end in
  let new is := r = match get_all fs is with Some _ => SSet K (length fs) | None => SNotASet K end in
  let decides (P : Prop) := exists b, r = SBool K b /\ (b = true <-> P) in
  match o with
  | SMake _ _ => new []
  | SCopy _ i => new [i]
  | SAdd _ i _ | SRemove _ i _ | SClear _ i => with1 i (fun _ => r = SVoid K)
  | SMember _ i x => with1 i (fun f => r = SBool K (f x))
  | SEmpty _ i => with1 i (fun f => decides (forall x, f x = false))
  | SCount _ i => with1 i (fun f => exists xs, enumerates xs f /\ r = SNum K (Z.of_nat (length xs)))
  | SToList _ i => with1 i (fun f => exists xs, enumerates xs f /\ r = SList K xs)
  | SSubset _ i j => with2 i j (fun f g => decides (sub f g))
  | SProper _ i j => with2 i j (fun f g => decides (sub f g /\ ~ sub g f))
  | SEq _ i j => with2 i j (fun f g => decides (forall x, f x = g x))
  | SUnion _ is | SIntersect _ is => new is
  | SSubtract _ i js | SSymdiff _ i js => new (i :: js)
  end.

Fixpoint spec_run (fs : list mset) (os : list (sop K)) (rs : list (sres K)) : Prop :=
  match os, rs with
  | [], [] => True
  | o :: os', r :: rs' => spec_out fs o r /\ spec_run (spec_next fs o) os' rs'
  | _, _ => False
  end.

(** The elements a history mentions. *)
Definition mentions (o : sop K) : list K :=
  match o with
  | SMake _ xs => xs
  | SAdd _ _ x => [x]
  | _ => []
  end.
End Spec.

(** ** Proofs *)

Lemma upd_upd {A} i (x y : A) l : upd i x (upd i y l) = upd i x l.
Proof. revert i. induction l as [|a l IH]; intros [|i]; simpl; auto. now rewrite IH. Qed.

Lemma upd_same {A} i (x : A) l : nth_error l i = Some x -> upd i x l = l.
Proof. revert i. induction l as [|a l IH]; intros [|i]; simpl; intros H; try discriminate; [congruence|]. now rewrite IH. Qed.

Lemma nth_app_l {A} (l : list A) x i y : nth_error l i = Some y -> nth_error (l ++ [x]) i = Some y.
Proof. intros H. rewrite nth_error_app1; auto. apply nth_error_Some. congruence. Qed.

Lemma nth_app_len {A} (l : list A) x : nth_error (l ++ [x]) (length l) = Some x.
Proof. rewrite nth_error_app2 by lia. now rewrite Nat.sub_diag. Qed.

Lemma upd_snoc {A} (l : list A) x y : upd (length l) y (l ++ [x]) = l ++ [y].
Proof. induction l as [|a l IH]; simpl; auto. now rewrite IH. Qed.

Section Proofs.
Variable K : Type.
Variable hash : K -> Z.
Variable equiv : K -> K -> bool.
Hypothesis equiv_refl : forall a, equiv a a = true.
Hypothesis equiv_sym : forall a b, equiv a b = equiv b a.
Hypothesis equiv_trans : forall a b c, equiv a b = true -> equiv b c = true -> equiv a c = true.
Hypothesis hash_compat : forall a b, equiv a b = true -> hash a = hash b.
Variable U : list K.
Hypothesis U_size : size_ok (S (length U)).

Notation amap := (amap K unit).
Notation aset m x := (aset K unit equiv m x tt).
Notation adel := (adel K unit equiv).
Notation aget := (aget K unit equiv).
Notation step := (step K unit hash equiv).
Notation listed := (listed K equiv).

Definition mem (m : amap) (x : K) : bool := match aget m x with Some _ => true | None => false end.

Record inv (w : world K unit) (ms : list amap) : Prop := mk_inv {
  inv_world : exists Ls, world_ok K unit hash equiv w Ls ms;
  inv_keys : forall i m, nth_error ms i = Some m -> incl (map fst m) U }.

Lemma equiv_eq_r a b x : equiv a b = true -> equiv x a = equiv x b.
Proof.
  intros E. destruct (equiv x a) eqn:A, (equiv x b) eqn:B; auto.
  - rewrite (equiv_trans x a b) in B; auto.
  - rewrite (equiv_trans x b a) in A; auto. now rewrite equiv_sym.
Qed.

Lemma mem_listed m x : mem m x = listed (map fst m) x.
Proof.
  unfold mem, listed. induction m as [|[k v] m IH]; simpl; auto.
  destruct (equiv k x); auto.
Qed.

Lemma mem_equiv m a b : equiv a b = true -> mem m a = mem m b.
Proof.
  intros E. rewrite !mem_listed. unfold SetsProofs.listed. induction (map fst m) as [|k l IH]; simpl; auto.
  now rewrite IH, (equiv_eq_r a b k).
Qed.

Lemma mem_aset m x y : mem (aset m x) y = equiv x y || mem m y.
Proof. unfold mem. rewrite (aget_aset K unit equiv); auto. destruct (equiv x y); auto. Qed.

Lemma mem_adel m x y : mem (adel m x) y = negb (equiv x y) && mem m y.
Proof. unfold mem. rewrite (aget_adel K unit equiv); auto. destruct (equiv x y); auto. Qed.

Lemma distinct_keys m : distinct K unit equiv m -> ForallOrdPairs (fun a b => equiv a b = false) (map fst m).
Proof.
  induction 1 as [|a m A H IH]; simpl; constructor; auto.
  apply Forall_map. auto.
Qed.

Lemma inequiv_perm l l' : Permutation l l' -> ForallOrdPairs (fun a b => equiv a b = false) l ->
  ForallOrdPairs (fun a b => equiv a b = false) l'.
Proof.
  induction 1; auto.
  - intros H1. inversion H1; subst. constructor; auto. rewrite Forall_forall in *.
    intros y Iy. apply H3. eapply Permutation_in; [symmetry; eassumption|auto].
  - intros H1. inversion H1 as [|? ? A B]; subst. inversion B as [|? ? C D]; subst. inversion A as [|? ? E F]; subst.
    constructor; [constructor; auto; now rewrite equiv_sym|]. constructor; auto.
Qed.

Lemma inequiv_nodup l : ForallOrdPairs (fun a b => equiv a b = false) l -> NoDup l.
Proof.
  induction 1 as [|a l A H IH]; constructor; auto.
  intros I. rewrite Forall_forall in A. specialize (A _ I). congruence.
Qed.

Lemma inv_distinct w ms i m : inv w ms -> nth_error ms i = Some m -> distinct K unit equiv m.
Proof.
  intros [[Ls W] _] H. destruct (nth_ex (tabs _ _ w) i) as (t & Et).
  { rewrite <- (wo_mlen _ _ _ _ _ _ _ W). eapply nth_lt; eauto. }
  destruct (world_get _ _ _ _ _ _ _ _ _ W Et) as (ls & m' & _ & E & T).
  rewrite H in E. inversion E; subst. apply T.
Qed.

Lemma inv_small w ms : inv w ms -> small K unit (length U) ms.
Proof.
  intros I i m H. rewrite <- (map_length fst). apply NoDup_incl_length.
  - apply inequiv_nodup, distinct_keys. eapply inv_distinct; eauto.
  - eapply inv_keys; eauto.
Qed.

Lemma do_step w ms o : inv w ms ->
  exists w' x ms' y Ls', step w o = Some (w', x) /\ astep K unit equiv ms o = (ms', y) /\
    world_ok K unit hash equiv w' Ls' ms' /\ out_match K unit x y.
Proof.
  intros I. assert (S := inv_small _ _ I). destruct I as [[Ls W] Ik].
  destruct (step_ok K unit hash equiv equiv_refl equiv_sym equiv_trans hash_compat w Ls ms o (length U) W S U_size)
    as (w' & x & Ls' & ms' & y & E & A & W' & _ & M).
  exists w', x, ms', y, Ls'. auto.
Qed.

Lemma keys_upd (ms : list amap) i m' : (forall j m, nth_error ms j = Some m -> incl (map fst m) U) ->
  incl (map fst m') U -> forall j m, nth_error (upd i m' ms) j = Some m -> incl (map fst m) U.
Proof.
  intros H H' j m E. destruct (Nat.eq_dec i j) as [<-|N].
  - assert (L := nth_lt _ _ _ E). rewrite upd_length in L. rewrite nth_upd_eq in E by auto. inversion E; subst; auto.
  - rewrite nth_upd_ne in E by auto. eauto.
Qed.

Lemma keys_snoc (ms : list amap) m' : (forall j m, nth_error ms j = Some m -> incl (map fst m) U) ->
  incl (map fst m') U -> forall j m, nth_error (ms ++ [m']) j = Some m -> incl (map fst m) U.
Proof. intros H H' j m E. apply nth_snoc in E. destruct E as [E|[_ ->]]; eauto. Qed.

Lemma new_table_ok w ms : inv w ms ->
  exists w', new_table K hash equiv w = Some (w', length ms) /\ inv w' (ms ++ [[]]).
Proof.
  intros I. destruct (do_step w ms (OMake _ _) I) as (w' & x & ms' & y & Ls' & E & A & W & M).
  cbn [astep] in A. inversion A; subst ms' y. clear A. destruct x; simpl in M; try discriminate. inversion M; subst.
  exists w'. split.
  - unfold new_table, sbind, prim. rewrite E. reflexivity.
  - constructor; [eauto|]. apply keys_snoc; [apply I|intros a []].
Qed.

Lemma keys_aset m x : In x U -> incl (map fst m) U -> incl (map fst (aset m x)) U.
Proof.
  intros Hx H. unfold Hashtable.aset. destruct (aget m x).
  - rewrite map_map. replace (map _ m) with (map fst m); auto. apply map_ext. intros [a b]. simpl. now destruct (equiv a x).
  - simpl. intros a [<-|I]; auto.
Qed.

Lemma keys_adel m x : incl (map fst m) U -> incl (map fst (adel m x)) U.
Proof.
  intros H a I. apply H. apply in_map_iff in I. destruct I as (kv & <- & I). apply filter_In in I. apply in_map. apply I.
Qed.

Lemma set_add_ok w ms i m x : inv w ms -> nth_error ms i = Some m -> In x U ->
  exists w', set_add K hash equiv i x w = Some (w', tt) /\ inv w' (upd i (aset m x) ms).
Proof.
  intros I H Hx. destruct (do_step w ms (OSet _ _ i x tt) I) as (w' & r & ms' & y & Ls' & E & A & W & M).
  cbn [astep] in A. rewrite H in A. inversion A; subst ms' y. clear A. destruct r; simpl in M; try discriminate.
  exists w'. split.
  - unfold set_add, sbind, prim. rewrite E. reflexivity.
  - constructor; [eauto|]. apply keys_upd; [apply I|]. apply keys_aset; auto. eapply inv_keys; eauto.
Qed.

Lemma set_remove_ok w ms i m x : inv w ms -> nth_error ms i = Some m ->
  exists w', set_remove K hash equiv i x w = Some (w', tt) /\ inv w' (upd i (adel m x) ms).
Proof.
  intros I H. destruct (do_step w ms (ODelete _ _ i x) I) as (w' & r & ms' & y & Ls' & E & A & W & M).
  cbn [astep] in A. rewrite H in A. inversion A; subst ms' y. clear A. destruct r; simpl in M; try discriminate.
  exists w'. split.
  - unfold set_remove, sbind, prim. rewrite E. reflexivity.
  - constructor; [eauto|]. apply keys_upd; [apply I|]. apply keys_adel. eapply inv_keys; eauto.
Qed.

Lemma set_clear_ok w ms i m : inv w ms -> nth_error ms i = Some m ->
  exists w', set_clear K hash equiv i w = Some (w', tt) /\ inv w' (upd i [] ms).
Proof.
  intros I H. destruct (do_step w ms (OClear _ _ i) I) as (w' & r & ms' & y & Ls' & E & A & W & M).
  cbn [astep] in A. rewrite H in A. inversion A; subst ms' y. clear A. destruct r; simpl in M; try discriminate.
  exists w'. split.
  - unfold set_clear, sbind, prim. rewrite E. reflexivity.
  - constructor; [eauto|]. apply keys_upd; [apply I|]. intros a [].
Qed.

Lemma set_member_ok w ms i m x : inv w ms -> nth_error ms i = Some m ->
  exists w', set_member K hash equiv i x w = Some (w', mem m x) /\ inv w' ms.
Proof.
  intros I H. destruct (do_step w ms (ORef _ _ i x) I) as (w' & r & ms' & y & Ls' & E & A & W & M).
  cbn [astep] in A. rewrite H in A. inversion A; subst ms' y. clear A.
  destruct r; simpl in M; try discriminate. inversion M; subst.
  exists w'. split.
  - unfold set_member, sbind, prim, mem. rewrite E. destruct (aget m x); reflexivity.
  - constructor; [eauto|apply I].
Qed.

Lemma set_count_ok w ms i m : inv w ms -> nth_error ms i = Some m ->
  exists w', set_count K hash equiv i w = Some (w', Z.of_nat (length m)) /\ inv w' ms.
Proof.
  intros I H. destruct (do_step w ms (OSize _ _ i) I) as (w' & r & ms' & y & Ls' & E & A & W & M).
  cbn [astep] in A. rewrite H in A. inversion A; subst ms' y. clear A.
  destruct r; simpl in M; try discriminate. inversion M; subst.
  exists w'. split.
  - unfold set_count, sbind, prim. rewrite E. reflexivity.
  - constructor; [eauto|apply I].
Qed.

Lemma keys_of_some (l : list (K * unit)) : keys_of K (map Some l) = Some (map fst l).
Proof. induction l as [|[k v] l IH]; simpl; auto. now rewrite IH. Qed.

Lemma map_some_inj {A} (a b : list A) : map Some a = map Some b -> a = b.
Proof. revert b. induction a as [|x a IH]; intros [|y b] H; simpl in H; try discriminate; auto. inversion H. f_equal; auto. Qed.

Lemma set_to_list_ok w ms i m : inv w ms -> nth_error ms i = Some m ->
  exists w' xs, set_to_list K hash equiv i w = Some (w', xs) /\ inv w' ms /\ Permutation xs (map fst m).
Proof.
  intros I H. destruct (do_step w ms (OEntries _ _ i) I) as (w' & r & ms' & y & Ls' & E & A & W & M).
  cbn [astep] in A. rewrite H in A. inversion A; subst ms' y. clear A.
  destruct r; simpl in M; try discriminate. destruct M as (x & y & -> & Ey & P). apply map_some_inj in Ey. subst y.
  exists w', (map fst x). split; [|split].
  - unfold set_to_list, sbind, prim. rewrite E, keys_of_some. reflexivity.
  - constructor; [eauto|apply I].
  - now apply Permutation_map.
Qed.

Lemma listed_perm xs ys x : Permutation xs ys -> listed xs x = listed ys x.
Proof.
  unfold SetsProofs.listed. induction 1; simpl; auto.
  - now rewrite IHPermutation.
  - destruct (equiv y x), (equiv x0 x); auto.
  - congruence.
Qed.

Lemma enum_of w ms i m xs : inv w ms -> nth_error ms i = Some m -> Permutation xs (map fst m) ->
  enumerates K equiv xs (mem m).
Proof.
  intros I H P. split.
  - eapply inequiv_perm; [symmetry; exact P|]. apply distinct_keys. eapply inv_distinct; eauto.
  - intros x. rewrite mem_listed. apply listed_perm. now symmetry.
Qed.

(** Loops that add to table [i]. *)
Lemma adds_ok i : forall xs w ms m, inv w ms -> nth_error ms i = Some m -> incl xs U ->
  exists w' m', for_each K (set_add K hash equiv i) xs w = Some (w', tt) /\ inv w' (upd i m' ms) /\
    forall y, mem m' y = mem m y || listed xs y.
Proof.
  induction xs as [|x xs IH]; intros w ms m I H HU.
  - exists w, m. simpl. split; [reflexivity|]. rewrite (upd_same _ _ _ H). split; auto. intros y. now rewrite orb_false_r.
  - destruct (set_add_ok w ms i m x I H) as (w1 & E1 & I1). { apply HU. now left. }
    assert (L := nth_lt _ _ _ H).
    destruct (IH w1 _ (aset m x) I1) as (w2 & m2 & E2 & I2 & F2).
    { now rewrite nth_upd_eq. } { intros a A. apply HU. now right. }
    exists w2, m2. cbn [for_each]. unfold sbind at 1. rewrite E1, E2. split; auto.
    rewrite upd_upd in I2. split; auto. intros y. rewrite F2, mem_aset. simpl.
    destruct (equiv x y), (mem m y); auto.
Qed.

Lemma make_set_ok xs w ms : inv w ms -> incl xs U ->
  exists w' m, make_set K hash equiv xs w = Some (w', length ms) /\ inv w' (ms ++ [m]) /\
    forall y, mem m y = listed xs y.
Proof.
  intros I HU. destruct (new_table_ok w ms I) as (w1 & E1 & I1).
  destruct (adds_ok (length ms) xs w1 _ [] I1) as (w2 & m & E2 & I2 & F); auto. { apply nth_app_len. }
  exists w2, m. unfold make_set, sbind. rewrite E1, E2. split; [reflexivity|]. split; auto.
  rewrite upd_snoc in I2. auto.
Qed.

(** Table [s] still holds [m] and all tables other than [i] are unchanged. *)
Lemma add_all_ok u s w ms mu m : inv w ms -> nth_error ms u = Some mu -> nth_error ms s = Some m ->
  exists w' m', add_all K hash equiv u s w = Some (w', tt) /\ inv w' (upd u m' ms) /\
    forall y, mem m' y = mem mu y || mem m y.
Proof.
  intros I Hu Hs. destruct (set_to_list_ok w ms s m I Hs) as (w1 & xs & E1 & I1 & P).
  destruct (adds_ok u xs w1 ms mu I1 Hu) as (w2 & m2 & E2 & I2 & F).
  { intros a A. eapply inv_keys; [exact I|exact Hs|]. eapply Permutation_in; eauto. }
  exists w2, m2. unfold add_all, sbind. rewrite E1, E2. split; auto. split; auto.
  intros y. rewrite F, (mem_listed m), (listed_perm _ _ _ P). reflexivity.
Qed.

Lemma set_copy_ok s w ms m : inv w ms -> nth_error ms s = Some m ->
  exists w' m', set_copy K hash equiv s w = Some (w', length ms) /\ inv w' (ms ++ [m']) /\
    forall y, mem m' y = mem m y.
Proof.
  intros I Hs. destruct (make_set_ok [] w ms I) as (w1 & m0 & E1 & I1 & F1). { intros a []. }
  destruct (add_all_ok (length ms) s w1 _ m0 m I1) as (w2 & m2 & E2 & I2 & F2).
  { apply nth_app_len. } { now apply nth_app_l. }
  rewrite upd_snoc in I2. exists w2, m2. split; [|split; auto].
  - unfold set_copy. unfold sbind at 1. rewrite E1. unfold add_all, sbind in E2. unfold sbind.
    destruct (set_to_list K hash equiv s w1) as [[w3 xs]|]; [|discriminate]. rewrite E2. reflexivity.
  - intros y. rewrite F2, F1. reflexivity.
Qed.

(** Subset tests. *)
Lemma subset_loop_ok st2 m2 : forall xs w ms, inv w ms -> nth_error ms st2 = Some m2 ->
  exists w', subset_loop K hash equiv st2 xs w = Some (w', forallb (mem m2) xs) /\ inv w' ms.
Proof.
  induction xs as [|x xs IH]; intros w ms I H; simpl; [exists w; auto|].
  destruct (set_member_ok w ms st2 m2 x I H) as (w1 & E1 & I1). unfold sbind. rewrite E1.
  destruct (mem m2 x); simpl; auto. exists w1. auto.
Qed.

Lemma sub_iff w ms s m xs (g : K -> bool) : inv w ms -> nth_error ms s = Some m -> Permutation xs (map fst m) ->
  (forall a b, equiv a b = true -> g a = g b) ->
  forallb g xs = true <-> sub K (mem m) g.
Proof.
  intros I H P G. destruct (enum_of _ _ _ _ _ I H P) as [_ E]. rewrite forallb_forall. split.
  - intros F x Hx. rewrite E in Hx. unfold SetsProofs.listed in Hx. apply existsb_exists in Hx.
    destruct Hx as (y & Iy & Q). rewrite <- (G _ _ Q). auto.
  - intros F x Ix. apply F. rewrite E. unfold SetsProofs.listed. apply existsb_exists. eauto.
Qed.

Lemma subset_ok s s2 w ms m m2 : inv w ms -> nth_error ms s = Some m -> nth_error ms s2 = Some m2 ->
  exists w' b, subset K hash equiv s s2 w = Some (w', b) /\ inv w' ms /\ (b = true <-> sub K (mem m) (mem m2)).
Proof.
  intros I H H2. destruct (set_to_list_ok w ms s m I H) as (w1 & xs & E1 & I1 & P).
  destruct (subset_loop_ok s2 m2 xs w1 ms I1 H2) as (w2 & E2 & I2).
  exists w2, (forallb (mem m2) xs). unfold subset, sbind. rewrite E1, E2. split; auto. split; auto.
  eapply sub_iff; eauto. intros a b. apply mem_equiv.
Qed.

(** Union *)
Lemma unions_ok u : forall ss w ms mu mss, inv w ms -> nth_error ms u = Some mu -> ~ In u ss ->
  Forall2 (fun s m => nth_error ms s = Some m) ss mss ->
  exists w' m', for_each K (add_all K hash equiv u) ss w = Some (w', tt) /\ inv w' (upd u m' ms) /\
    forall y, mem m' y = mem mu y || existsb (fun m => mem m y) mss.
Proof.
  induction ss as [|s ss IH]; intros w ms mu mss I Hu N F; inversion F; subst.
  - exists w, mu. simpl. rewrite (upd_same _ _ _ Hu). split; [reflexivity|]. split; auto. intros. now rewrite orb_false_r.
  - destruct (add_all_ok u s w ms mu y I Hu) as (w1 & m1 & E1 & I1 & F1); auto.
    destruct (IH w1 _ m1 l' I1) as (w2 & m2 & E2 & I2 & F2).
    + rewrite nth_upd_eq; auto. eapply nth_lt; eauto.
    + intros H. apply N. now right.
    + clear -H3 N. assert (N' : ~ In u ss) by (intros H; apply N; now right). clear N.
      induction H3; constructor; auto.
      * rewrite nth_upd_ne; auto. intros ->. apply N'. now left.
      * apply IHForall2. intros H0. apply N'. now right.
    + exists w2, m2. cbn [for_each]. unfold sbind at 1. rewrite E1, E2, upd_upd in *. split; auto. split; auto.
      intros z. rewrite F2, F1. simpl. now rewrite orb_assoc.
Qed.

Lemma args_lt ms ss (mss : list amap) : Forall2 (fun s m => nth_error ms s = Some m) ss mss -> ~ In (length ms) ss.
Proof. induction 1; simpl; [tauto|]. intros [E|I]; auto. subst. apply nth_lt in H. lia. Qed.

Lemma args_app ms x ss (mss : list amap) : Forall2 (fun s m => nth_error ms s = Some m) ss mss ->
  Forall2 (fun s m => nth_error (ms ++ [x]) s = Some m) ss mss.
Proof. induction 1; constructor; auto. now apply nth_app_l. Qed.

Lemma set_union_ok ss w ms mss : inv w ms -> Forall2 (fun s m => nth_error ms s = Some m) ss mss ->
  exists w' m, set_union K hash equiv ss w = Some (w', length ms) /\ inv w' (ms ++ [m]) /\
    forall y, mem m y = existsb (fun m => mem m y) mss.
Proof.
  intros I F. destruct (make_set_ok [] w ms I) as (w1 & m0 & E1 & I1 & F1). { intros a []. }
  destruct ss as [|s [|s2 ss]].
  - inversion F; subst. exists w1, m0. cbn [set_union]. split; auto.
  - inversion F as [|? m ? ? Hm F']; subst. inversion F'; subst.
    destruct (add_all_ok (length ms) s w1 _ m0 m I1) as (w2 & m2 & E2 & I2 & F2).
    { apply nth_app_len. } { now apply nth_app_l. }
    rewrite upd_snoc in I2. exists w2, m2. unfold set_union, sbind. rewrite E1, E2. split; auto. split; auto.
    intros y. rewrite F2, F1. simpl. now rewrite orb_false_r.
  - destruct (unions_ok (length ms) (s :: s2 :: ss) w1 _ m0 mss I1) as (w2 & m2 & E2 & I2 & F2).
    { apply nth_app_len. } { eapply args_lt; eauto. } { now apply args_app. }
    rewrite upd_snoc in I2. exists w2, m2. unfold set_union. unfold sbind. rewrite E1, E2. split; auto. split; auto.
    intros y. rewrite F2, F1. reflexivity.
Qed.

(** Intersection *)
Lemma filter_adds_ok i s m0 : forall xs w ms m, inv w ms -> nth_error ms i = Some m -> nth_error ms s = Some m0 -> i <> s ->
  incl xs U ->
  exists w' m', for_each K (fun x => sbind K (set_member K hash equiv s x) (fun b => if b then set_add K hash equiv i x else sret K tt)) xs w
     = Some (w', tt) /\ inv w' (upd i m' ms) /\
    forall y, mem m' y = mem m y || (listed xs y && mem m0 y).
Proof.
  induction xs as [|x xs IH]; intros w ms m I H H0 N HU.
  - exists w, m. simpl. split; [reflexivity|]. rewrite (upd_same _ _ _ H). split; auto. intros y. now rewrite orb_false_r.
  - destruct (set_member_ok w ms s m0 x I H0) as (w1 & E1 & I1).
    assert (L := nth_lt _ _ _ H). assert (HU' : incl xs U) by (intros a A; apply HU; now right).
    cbn [for_each]. unfold sbind at 1 2. rewrite E1. destruct (mem m0 x) eqn:M.
    + destruct (set_add_ok w1 ms i m x I1 H) as (w2 & E2 & I2). { apply HU. now left. } rewrite E2.
      destruct (IH w2 _ (aset m x) I2) as (w3 & m3 & E3 & I3 & F3); auto.
      { now rewrite nth_upd_eq. } { now rewrite nth_upd_ne. }
      exists w3, m3. split; [exact E3|]. rewrite upd_upd in I3. split; auto.
      intros y. rewrite F3, mem_aset. simpl. destruct (equiv x y) eqn:Q; simpl; auto.
      rewrite <- (mem_equiv m0 _ _ Q), M. now rewrite orb_true_r.
    + destruct (IH w1 _ m I1) as (w3 & m3 & E3 & I3 & F3); auto.
      exists w3, m3. split; [exact E3|]. split; auto.
      intros y. rewrite F3. simpl. destruct (equiv x y) eqn:Q; simpl; auto.
      rewrite <- (mem_equiv m0 _ _ Q), M. now rewrite andb_false_r.
Qed.

Lemma mem_empty m x : length m = 0 -> mem m x = false.
Proof. destruct m; [reflexivity|discriminate]. Qed.

Lemma intersect_loop_ok : forall ss w ms i m mss, inv w ms -> nth_error ms i = Some m ->
  Forall2 (fun s m => nth_error ms s = Some m) ss mss ->
  exists w' ms' r m', intersect_loop K hash equiv ss i w = Some (w', r) /\ inv w' (ms ++ ms') /\
    nth_error (ms ++ ms') r = Some m' /\ (r = i \/ length ms <= r) /\
    forall y, mem m' y = mem m y && forallb (fun m => mem m y) mss.
Proof.
  induction ss as [|s ss IH]; intros w ms i m mss I H F; inversion F; subst.
  - exists w, [], i, m. rewrite app_nil_r. simpl. split; [reflexivity|]. do 2 (split; auto). split; auto. intros; now rewrite andb_true_r.
  - cbn [intersect_loop]. destruct (set_count_ok w ms i m I H) as (w1 & E1 & I1). unfold sbind at 1. rewrite E1.
    destruct (Z.eqb_spec (Z.of_nat (length m)) 0) as [Z0|Z0].
    + exists w1, [], i, m. rewrite app_nil_r. split; [reflexivity|]. do 2 (split; auto). split; auto.
      intros z. rewrite (mem_empty m) by lia. reflexivity.
    + destruct (make_set_ok [] w1 ms I1) as (w2 & m0 & E2 & I2 & F2). { intros a []. }
      unfold sbind at 1. rewrite E2.
      destruct (set_to_list_ok w2 _ i m I2) as (w3 & xs & E3 & I3 & P3). { now apply nth_app_l. }
      unfold sbind at 1. rewrite E3.
      assert (Li := nth_lt _ _ _ H). assert (Ls := nth_lt _ _ _ H2).
      destruct (filter_adds_ok (length ms) s y xs w3 _ m0 I3) as (w4 & m4 & E4 & I4 & F4).
      { apply nth_app_len. } { now apply nth_app_l. } { lia. }
      { intros a A. eapply inv_keys; [exact I|exact H|]. eapply Permutation_in; eauto. }
      unfold sbind at 1. rewrite E4. rewrite upd_snoc in I4.
      destruct (IH w4 _ (length ms) m4 l' I4) as (w5 & ms5 & r & m5 & E5 & I5 & H5 & R5 & F5).
      { apply nth_app_len. } { now apply args_app. }
      exists w5, (m4 :: ms5), r, m5. rewrite <- app_assoc in *. simpl in *. rewrite app_length in R5. simpl in R5.
      split; auto. do 2 (split; auto). split; [lia|].
      intros z. rewrite F5, F4, F2, (listed_perm _ _ _ P3), <- mem_listed. simpl. now rewrite andb_assoc.
Qed.

(** The result of a call that makes new tables: the old ones are unchanged and
    the result is a new one. *)
Definition makes (c : SM K nat) (w : world K unit) (ms : list amap) (f : K -> bool) : Prop :=
  exists w' ms' r m, c w = Some (w', r) /\ inv w' (ms ++ ms') /\ nth_error (ms ++ ms') r = Some m /\
    length ms <= r /\ forall y, mem m y = f y.

Lemma makes_one c w ms f w' m : c w = Some (w', length ms) -> inv w' (ms ++ [m]) -> (forall y, mem m y = f y) ->
  makes c w ms f.
Proof. intros E I F. exists w', [m], (length ms), m. split; auto. split; auto. split; [apply nth_app_len|]. auto. Qed.

Lemma set_intersect_ok ss w ms mss : inv w ms -> Forall2 (fun s m => nth_error ms s = Some m) ss mss ->
  makes (set_intersect K hash equiv ss) w ms
    (fun y => match mss with [] => false | _ => forallb (fun m => mem m y) mss end).
Proof.
  intros I F. destruct (make_set_ok [] w ms I) as (w1 & m0 & E1 & I1 & F1). { intros a []. }
  destruct ss as [|s ss].
  - inversion F; subst. eapply makes_one; eauto.
  - inversion F as [|? m ? mss' Hm F']; subst.
    destruct (add_all_ok (length ms) s w1 _ m0 m I1) as (w2 & m2 & E2 & I2 & F2).
    { apply nth_app_len. } { now apply nth_app_l. }
    rewrite upd_snoc in I2. destruct ss as [|s2 ss].
    + inversion F'; subst. eapply (makes_one _ _ _ _ w2 m2).
      * unfold set_intersect, sbind. rewrite E1, E2. reflexivity.
      * auto.
      * intros y. rewrite F2, F1. simpl. now rewrite andb_true_r.
    + destruct (intersect_loop_ok (s2 :: ss) w2 _ (length ms) m2 mss' I2) as (w3 & ms3 & r & m3 & E3 & I3 & H3 & R3 & F3).
      { apply nth_app_len. } { now apply args_app. }
      rewrite <- app_assoc in *. simpl in *. rewrite app_length in R3. simpl in R3.
      exists w3, (m2 :: ms3), r, m3. split.
      * unfold set_intersect, sbind. rewrite E1, E2. exact E3.
      * split; auto. split; auto. split; [lia|]. intros y. rewrite F3, F2, F1. reflexivity.
Qed.

(** Subtraction *)
Lemma filter_dels_ok i s m0 : forall xs w ms m, inv w ms -> nth_error ms i = Some m -> nth_error ms s = Some m0 -> i <> s ->
  exists w' m', for_each K (fun x => sbind K (set_member K hash equiv s x) (fun b => if b then set_remove K hash equiv i x else sret K tt)) xs w
     = Some (w', tt) /\ inv w' (upd i m' ms) /\
    forall y, mem m' y = mem m y && negb (listed xs y && mem m0 y).
Proof.
  induction xs as [|x xs IH]; intros w ms m I H H0 N.
  - exists w, m. simpl. split; [reflexivity|]. rewrite (upd_same _ _ _ H). split; auto. intros y. now rewrite andb_true_r.
  - destruct (set_member_ok w ms s m0 x I H0) as (w1 & E1 & I1).
    assert (L := nth_lt _ _ _ H).
    cbn [for_each]. unfold sbind at 1 2. rewrite E1. destruct (mem m0 x) eqn:M.
    + destruct (set_remove_ok w1 ms i m x I1 H) as (w2 & E2 & I2). rewrite E2.
      destruct (IH w2 _ (adel m x) I2) as (w3 & m3 & E3 & I3 & F3); auto.
      { now rewrite nth_upd_eq. } { now rewrite nth_upd_ne. }
      exists w3, m3. split; [exact E3|]. rewrite upd_upd in I3. split; auto.
      intros y. rewrite F3, mem_adel. simpl. destruct (equiv x y) eqn:Q; simpl; auto.
      rewrite <- (mem_equiv m0 _ _ Q), M. simpl. now rewrite andb_false_r.
    + destruct (IH w1 _ m I1) as (w3 & m3 & E3 & I3 & F3); auto.
      exists w3, m3. split; [exact E3|]. split; auto.
      intros y. rewrite F3. simpl. destruct (equiv x y) eqn:Q; simpl; auto.
      rewrite <- (mem_equiv m0 _ _ Q), M. now rewrite andb_false_r.
Qed.

Lemma args_upd ms d m' ss (mss : list amap) : ~ In d ss -> Forall2 (fun s m => nth_error ms s = Some m) ss mss ->
  Forall2 (fun s m => nth_error (upd d m' ms) s = Some m) ss mss.
Proof.
  intros N. induction 1; constructor; auto.
  - rewrite nth_upd_ne; auto. intros ->. apply N. now left.
  - apply IHForall2. intros H1. apply N. now right.
Qed.

Lemma subtract_loop_ok d : forall sts w ms m mss, inv w ms -> nth_error ms d = Some m -> ~ In d sts ->
  Forall2 (fun s m => nth_error ms s = Some m) sts mss ->
  exists w' m', subtract_loop K hash equiv d sts w = Some (w', d) /\ inv w' (upd d m' ms) /\
    forall y, mem m' y = mem m y && negb (existsb (fun m => mem m y) mss).
Proof.
  induction sts as [|st sts IH]; intros w ms m mss I H N F; inversion F; subst.
  - exists w, m. simpl. rewrite (upd_same _ _ _ H). split; [reflexivity|]. split; auto. intros; now rewrite andb_true_r.
  - cbn [subtract_loop]. destruct (set_to_list_ok w ms d m I H) as (w1 & xs & E1 & I1 & P).
    unfold sbind at 1. rewrite E1.
    destruct (filter_dels_ok d st y xs w1 ms m I1 H) as (w2 & m2 & E2 & I2 & F2); auto. { intros ->. apply N. now left. }
    unfold sbind at 1. rewrite E2. assert (L := nth_lt _ _ _ H).
    assert (N' : ~ In d sts) by (intros A; apply N; now right).
    destruct (IH w2 _ m2 l' I2) as (w3 & m3 & E3 & I3 & F3); auto.
    { now rewrite nth_upd_eq. } { now apply args_upd. }
    exists w3, m3. split; auto. rewrite upd_upd in I3. split; auto.
    intros z. rewrite F3, F2, (listed_perm _ _ _ P), <- mem_listed. simpl.
    destruct (mem m z), (mem y z), (existsb (fun m1 => mem m1 z) l'); reflexivity.
Qed.

Lemma set_subtract_ok s ss w ms m mss : inv w ms -> nth_error ms s = Some m ->
  Forall2 (fun s m => nth_error ms s = Some m) ss mss ->
  makes (set_subtract K hash equiv s ss) w ms (fun y => mem m y && negb (existsb (fun m => mem m y) mss)).
Proof.
  intros I H F. destruct (set_copy_ok s w ms m I H) as (w1 & m1 & E1 & I1 & F1).
  destruct (subtract_loop_ok (length ms) ss w1 _ m1 mss I1) as (w2 & m2 & E2 & I2 & F2).
  { apply nth_app_len. } { eapply args_lt; eauto. } { now apply args_app. }
  rewrite upd_snoc in I2. eapply (makes_one _ _ _ _ w2 m2); eauto.
  - unfold set_subtract, sbind. now rewrite E1.
  - intros y. now rewrite F2, F1.
Qed.

(** Symmetric difference *)
Lemma toggles_ok i : forall xs w ms m, inv w ms -> nth_error ms i = Some m -> incl xs U ->
  ForallOrdPairs (fun a b => equiv a b = false) xs ->
  exists w' m', for_each K (fun x => sbind K (set_member K hash equiv i x)
      (fun b => if b then set_remove K hash equiv i x else set_add K hash equiv i x)) xs w
     = Some (w', tt) /\ inv w' (upd i m' ms) /\
    forall y, mem m' y = xorb (mem m y) (listed xs y).
Proof.
  induction xs as [|x xs IH]; intros w ms m I H HU D.
  - exists w, m. simpl. split; [reflexivity|]. rewrite (upd_same _ _ _ H). split; auto. intros y. now rewrite xorb_false_r.
  - destruct (set_member_ok w ms i m x I H) as (w1 & E1 & I1).
    assert (L := nth_lt _ _ _ H). assert (HU' : incl xs U) by (intros a A; apply HU; now right).
    inversion D as [|? ? D1 D2]; subst.
    assert (X : forall y, equiv x y = true -> listed xs y = false).
    { intros y Q. clear -D1 Q equiv_trans equiv_sym. unfold SetsProofs.listed. induction D1; simpl; auto.
      rewrite IHD1, orb_false_r. destruct (equiv x0 y) eqn:R; auto.
      rewrite (equiv_trans x y x0) in H; auto. now rewrite equiv_sym. }
    cbn [for_each]. unfold sbind at 1 2. rewrite E1. destruct (mem m x) eqn:M.
    + destruct (set_remove_ok w1 ms i m x I1 H) as (w2 & E2 & I2). rewrite E2.
      destruct (IH w2 _ (adel m x) I2) as (w3 & m3 & E3 & I3 & F3); auto.
      { now rewrite nth_upd_eq. }
      exists w3, m3. split; [exact E3|]. rewrite upd_upd in I3. split; auto.
      intros y. rewrite F3, mem_adel. simpl. destruct (equiv x y) eqn:Q; simpl; auto.
      rewrite (X _ Q), <- (mem_equiv m _ _ Q), M. reflexivity.
    + destruct (set_add_ok w1 ms i m x I1 H) as (w2 & E2 & I2). { apply HU. now left. } rewrite E2.
      destruct (IH w2 _ (aset m x) I2) as (w3 & m3 & E3 & I3 & F3); auto.
      { now rewrite nth_upd_eq. }
      exists w3, m3. split; [exact E3|]. rewrite upd_upd in I3. split; auto.
      intros y. rewrite F3, mem_aset. simpl. destruct (equiv x y) eqn:Q; simpl; auto.
      rewrite (X _ Q), <- (mem_equiv m _ _ Q), M. reflexivity.
Qed.

Lemma symdiff_loop_ok d : forall sts w ms m mss, inv w ms -> nth_error ms d = Some m -> ~ In d sts ->
  Forall2 (fun s m => nth_error ms s = Some m) sts mss ->
  exists w' m', symdiff_loop K hash equiv d sts w = Some (w', d) /\ inv w' (upd d m' ms) /\
    forall y, mem m' y = fold_left xorb (map (fun m => mem m y) mss) (mem m y).
Proof.
  induction sts as [|st sts IH]; intros w ms m mss I H N F; inversion F; subst.
  - exists w, m. simpl. rewrite (upd_same _ _ _ H). split; [reflexivity|]. split; auto.
  - cbn [symdiff_loop]. destruct (set_to_list_ok w ms st y I H2) as (w1 & xs & E1 & I1 & P).
    unfold sbind at 1. rewrite E1. destruct (enum_of _ _ _ _ _ I H2 P) as [D _].
    destruct (toggles_ok d xs w1 ms m I1 H) as (w2 & m2 & E2 & I2 & F2); auto.
    { intros a A. eapply inv_keys; [exact I|exact H2|]. eapply Permutation_in; eauto. }
    unfold sbind at 1. rewrite E2. assert (L := nth_lt _ _ _ H).
    assert (N' : ~ In d sts) by (intros A; apply N; now right).
    destruct (IH w2 _ m2 l' I2) as (w3 & m3 & E3 & I3 & F3); auto.
    { now rewrite nth_upd_eq. } { now apply args_upd. }
    exists w3, m3. split; auto. rewrite upd_upd in I3. split; auto.
    intros z. rewrite F3, F2, (listed_perm _ _ _ P), <- mem_listed. reflexivity.
Qed.

Lemma set_symdiff_ok s ss w ms m mss : inv w ms -> nth_error ms s = Some m ->
  Forall2 (fun s m => nth_error ms s = Some m) ss mss ->
  makes (set_symdiff K hash equiv s ss) w ms (fun y => fold_left xorb (map (fun m => mem m y) mss) (mem m y)).
Proof.
  intros I H F. destruct (set_copy_ok s w ms m I H) as (w1 & m1 & E1 & I1 & F1).
  destruct (symdiff_loop_ok (length ms) ss w1 _ m1 mss I1) as (w2 & m2 & E2 & I2 & F2).
  { apply nth_app_len. } { eapply args_lt; eauto. } { now apply args_app. }
  rewrite upd_snoc in I2. eapply (makes_one _ _ _ _ w2 m2); eauto.
  - unfold set_symdiff, sbind. now rewrite E1.
  - intros y. now rewrite F2, F1.
Qed.

(** ** Histories *)

Record rel (s : sworld K) (fs : list (mset K)) : Prop := mk_rel {
  rel_len : length (handles _ s) = length fs;
  rel_nodup : NoDup (handles _ s);
  rel_inv : exists ms, inv (sw _ s) ms /\
    forall i t f, nth_error (handles _ s) i = Some t -> nth_error fs i = Some f ->
      exists m, nth_error ms t = Some m /\ forall x, mem m x = f x }.

Notation sstep := (sstep K hash equiv).
Notation spec_next := (spec_next K equiv).
Notation spec_out := (spec_out K equiv).

Lemma args_get hs fs : length hs = length fs -> forall is,
  match args hs is, get_all K fs is with
  | Some ts, Some gs => length ts = length gs /\ length ts = length is /\
      forall (ms : list amap), (forall i t f, nth_error hs i = Some t -> nth_error fs i = Some f ->
        exists m, nth_error ms t = Some m /\ forall x, mem m x = f x) ->
      exists mss, Forall2 (fun s m => nth_error ms s = Some m) ts mss /\
                  Forall2 (fun m g => forall x, mem m x = g x) mss gs
  | None, None => True
  | _, _ => False
  end.
Proof.
  intros L. induction is as [|i is IH]; simpl.
  - do 2 (split; auto). intros ms _. exists []. split; constructor.
  - destruct (nth_error hs i) as [t|] eqn:Et.
    + destruct (nth_ex fs i) as (f & Ef). { rewrite <- L. eapply nth_lt; eauto. } rewrite Ef.
      destruct (args hs is) as [ts|], (get_all K fs is) as [gs|]; auto.
      destruct IH as (L1 & L2 & IH). simpl. do 2 (split; [lia|]). intros ms H.
      destruct (IH ms H) as (mss & A & B). destruct (H _ _ _ Et Ef) as (m & Em & Fm).
      exists (m :: mss). split; constructor; auto.
    + assert (X : nth_error fs i = None). { apply nth_error_None. rewrite <- L. now apply nth_error_None. }
      rewrite X. auto.
Qed.

Lemma rel_fresh s fs ms c (f : mset K) : length (handles _ s) = length fs -> NoDup (handles _ s) -> inv (sw _ s) ms ->
  (forall i t f, nth_error (handles _ s) i = Some t -> nth_error fs i = Some f ->
      exists m, nth_error ms t = Some m /\ forall x, mem m x = f x) ->
  makes c (sw _ s) ms f ->
  exists s', fresh K s c = Some (s', SSet K (length fs)) /\ rel s' (fs ++ [f]).
Proof.
  intros L ND I H (w' & ms' & r & m & E & I' & Er & Lr & F). unfold fresh. rewrite E. eexists. rewrite L. split; [reflexivity|].
  constructor; simpl.
  - rewrite !app_length. simpl. lia.
  - assert (X : ~ In r (handles K s)).
    { intros A. apply In_nth_error in A. destruct A as (i & A). destruct (nth_ex fs i) as (g & G).
      { rewrite <- L. eapply nth_lt; eauto. } destruct (H _ _ _ A G) as (mm & B & _). apply nth_lt in B. lia. }
    clear -ND X. induction (handles K s) as [|a l IH]; simpl; [repeat constructor; auto|].
    inversion ND; subst. constructor.
    + rewrite in_app_iff. simpl. intros [A|[A|[]]]; auto. subst. apply X. now left.
    + apply IH; auto. intros A. apply X. now right.
  - exists (ms ++ ms'). split; auto. intros i t g A B. apply nth_snoc in A. apply nth_snoc in B.
    destruct A as [A|[Ai ->]].
    + destruct B as [B|[Bi ->]]; [|apply nth_lt in A; unfold mset in *; lia].
      destruct (H _ _ _ A B) as (mm & C & D). exists mm. split; auto. rewrite nth_error_app1; auto. eapply nth_lt; eauto.
    + destruct B as [B|[Bi ->]]; [apply nth_lt in B; unfold mset in *; lia|]. exists m. auto.
Qed.

Lemma rel_same s fs w : rel s fs -> (forall ms, inv (sw _ s) ms -> inv w ms) -> rel (mksworld K w (handles _ s)) fs.
Proof. intros [L N (ms & I & H)] X. constructor; simpl; auto. exists ms. auto. Qed.

Lemma rel_change (s : sworld K) (fs : list (mset K)) (ms : list amap) i t f w' m' g :
  length (handles _ s) = length fs -> NoDup (handles _ s) ->
  (forall i t f, nth_error (handles _ s) i = Some t -> nth_error fs i = Some f ->
      exists m, nth_error ms t = Some m /\ forall x, mem m x = f x) ->
  nth_error (handles _ s) i = Some t -> nth_error fs i = Some f ->
  inv w' (upd t m' ms) -> (forall x, mem m' x = g x) ->
  rel (mksworld K w' (handles _ s)) (upd i g fs).
Proof.
  intros L N H Et Ef I G. constructor; simpl; auto.
  - now rewrite upd_length.
  - exists (upd t m' ms). split; auto. intros j u k A B.
    destruct (Nat.eq_dec i j) as [<-|NE].
    + rewrite Et in A. inversion A; subst u. rewrite nth_upd_eq in B by (eapply nth_lt; eauto). inversion B; subst k.
      exists m'. split; auto. apply nth_upd_eq. destruct (H _ _ _ Et Ef) as (mm & C & _). eapply nth_lt; eauto.
    + rewrite nth_upd_ne in B by auto. destruct (H _ _ _ A B) as (mm & C & D). exists mm. split; auto.
      rewrite nth_upd_ne; auto. intros ->. apply NE.
      eapply (proj1 (NoDup_nth_error _) N); [eapply nth_lt; eauto|congruence].
Qed.

Lemma exb_ext mss gs : Forall2 (fun m g => forall x, mem m x = g x) mss gs ->
  forall y, existsb (fun m => mem m y) mss = existsb (fun g : mset K => g y) gs.
Proof. induction 1; simpl; intros; auto. now rewrite H, IHForall2. Qed.
Lemma fab_ext mss gs : Forall2 (fun m g => forall x, mem m x = g x) mss gs ->
  forall y, forallb (fun m => mem m y) mss = forallb (fun g : mset K => g y) gs.
Proof. induction 1; simpl; intros; auto. now rewrite H, IHForall2. Qed.
Lemma map_ext2 mss gs : Forall2 (fun m g => forall x, mem m x = g x) mss gs ->
  forall y, map (fun m => mem m y) mss = map (fun g : mset K => g y) gs.
Proof. induction 1; simpl; intros; auto. now rewrite H, IHForall2. Qed.

Lemma makes_ext c w ms f g : (forall y, f y = g y) -> makes c w ms f -> makes c w ms g.
Proof.
  intros E (w' & ms' & r & m & A & B & C & D & F). exists w', ms', r, m. repeat (split; auto).
  intros y. now rewrite F.
Qed.

Lemma sub_ext f f' g g' : (forall x : K, f x = f' x) -> (forall x, g x = g' x) -> sub K f g <-> sub K f' g'.
Proof. intros A B. unfold sub. split; intros H x; [rewrite <- A, <- B|rewrite A, B]; auto. Qed.

Lemma sstep_ok s fs o : rel s fs -> incl (mentions K o) U ->
  exists s' r, sstep s o = Some (s', r) /\ spec_out fs o r /\ rel s' (spec_next fs o).
Proof.
  intros R HU. assert (R' := R). destruct R as [L N (ms & I & H)].
  assert (one : forall i, (exists t f m, args (handles _ s) [i] = Some [t] /\ nth_error (handles _ s) i = Some t /\ nth_error fs i = Some f /\
      get_all K fs [i] = Some [f] /\ nth_error ms t = Some m /\ forall x, mem m x = f x)
    \/ (args (handles _ s) [i] = None /\ nth_error fs i = None /\ get_all K fs [i] = None)).
  { intros i. simpl. destruct (nth_error (handles K s) i) as [t|] eqn:Et.
    - left. destruct (nth_ex fs i) as (f & Ef). { rewrite <- L. eapply nth_lt; eauto. }
      destruct (H _ _ _ Et Ef) as (m & Em & Fm). exists t, f, m. rewrite Ef. repeat (split; auto).
    - right. assert (X : nth_error fs i = None). { apply nth_error_None. rewrite <- L. now apply nth_error_None. }
      rewrite X. auto. }
  assert (two : forall i j, (exists t u f g m m2, args (handles _ s) [i; j] = Some [t; u] /\
      nth_error fs i = Some f /\ nth_error fs j = Some g /\
      nth_error ms t = Some m /\ (forall x, mem m x = f x) /\ nth_error ms u = Some m2 /\ forall x, mem m2 x = g x)
    \/ (args (handles _ s) [i; j] = None /\ (nth_error fs i = None \/ nth_error fs j = None))).
  { intros i j. simpl. destruct (nth_error (handles K s) i) as [t|] eqn:Et.
    - destruct (nth_ex fs i) as (f & Ef). { rewrite <- L. eapply nth_lt; eauto. }
      destruct (H _ _ _ Et Ef) as (m & Em & Fm).
      destruct (nth_error (handles K s) j) as [u|] eqn:Eu.
      + left. destruct (nth_ex fs j) as (g & Eg). { rewrite <- L. eapply nth_lt; eauto. }
        destruct (H _ _ _ Eu Eg) as (m2 & Em2 & Fm2). exists t, u, f, g, m, m2. repeat (split; auto).
      + right. split; auto. right. apply nth_error_None. rewrite <- L. now apply nth_error_None.
    - right. split; auto. left. apply nth_error_None. rewrite <- L. now apply nth_error_None. }
  assert (no : forall P : Prop, P -> exists s' r, Some (s, SNotASet K) = Some (s', r) /\ (r = SNotASet K /\ P) /\ rel s' fs).
  { intros P HP. exists s, (SNotASet K). auto. }
  destruct o as [xs|i|i x|i x|i|i x|i|i|i|i j|i j|i j|is|is|i js|i js].
  - (* make *)
    destruct (make_set_ok xs (sw _ s) ms I HU) as (w1 & m1 & E1 & I1 & F1).
    destruct (rel_fresh s fs ms (make_set K hash equiv xs) (listed xs) L N I H) as (s' & A & B).
    { apply (makes_one _ _ _ _ _ _ E1 I1 F1). }
    exists s', (SSet K (length fs)). cbn [sstep Sets.sstep]. split; [exact A|]. split; [reflexivity|exact B].
  - (* copy *)
    cbn [Sets.sstep spec_out SetsProofs.spec_out spec_next SetsProofs.spec_next].
    destruct (one i) as [(t & f & m & A & At & Af & Ag & Em & Fm)|(A & Af & Ag)]; rewrite A, Af, Ag.
    + destruct (set_copy_ok t (sw _ s) ms m I Em) as (w1 & m1 & E1 & I1 & F1).
      destruct (rel_fresh s fs ms (set_copy K hash equiv t) f L N I H) as (s' & B & C).
      { apply (makes_one _ _ _ _ _ _ E1 I1). intros y. now rewrite F1. }
      exists s', (SSet K (length fs)). auto.
    + exists s, (SNotASet K). auto.
  - (* add *)
    cbn [Sets.sstep SetsProofs.spec_out SetsProofs.spec_next].
    destruct (one i) as [(t & f & m & A & At & Af & Ag & Em & Fm)|(A & Af & Ag)]; rewrite A, Af.
    + destruct (set_add_ok (sw _ s) ms t m x I Em) as (w1 & E1 & I1). { apply HU. now left. }
      unfold plain. rewrite E1. eexists _, _. split; [reflexivity|]. split; [reflexivity|].
      eapply rel_change; eauto. intros y. now rewrite mem_aset, Fm.
    + exists s, (SNotASet K). auto.
  - (* remove *)
    cbn [Sets.sstep SetsProofs.spec_out SetsProofs.spec_next].
    destruct (one i) as [(t & f & m & A & At & Af & Ag & Em & Fm)|(A & Af & Ag)]; rewrite A, Af.
    + destruct (set_remove_ok (sw _ s) ms t m x I Em) as (w1 & E1 & I1).
      unfold plain. rewrite E1. eexists _, _. split; [reflexivity|]. split; [reflexivity|].
      eapply rel_change; eauto. intros y. now rewrite mem_adel, Fm.
    + exists s, (SNotASet K). auto.
  - (* clear *)
    cbn [Sets.sstep SetsProofs.spec_out SetsProofs.spec_next].
    destruct (one i) as [(t & f & m & A & At & Af & Ag & Em & Fm)|(A & Af & Ag)]; rewrite A, Af.
    + destruct (set_clear_ok (sw _ s) ms t m I Em) as (w1 & E1 & I1).
      unfold plain. rewrite E1. eexists _, _. split; [reflexivity|]. split; [reflexivity|].
      eapply rel_change; eauto.
    + exists s, (SNotASet K). auto.
  - (* member *)
    cbn [Sets.sstep SetsProofs.spec_out SetsProofs.spec_next].
    destruct (one i) as [(t & f & m & A & At & Af & Ag & Em & Fm)|(A & Af & Ag)]; rewrite A, Af.
    + destruct (set_member_ok (sw _ s) ms t m x I Em) as (w1 & E1 & I1).
      unfold plain. rewrite E1. eexists _, _. split; [reflexivity|]. split; [now rewrite Fm|].
      constructor; simpl; auto. exists ms. auto.
    + exists s, (SNotASet K). auto.
  - (* empty *)
    cbn [Sets.sstep SetsProofs.spec_out SetsProofs.spec_next].
    destruct (one i) as [(t & f & m & A & At & Af & Ag & Em & Fm)|(A & Af & Ag)]; rewrite A, Af.
    + destruct (set_count_ok (sw _ s) ms t m I Em) as (w1 & E1 & I1).
      unfold plain, set_empty, sbind. rewrite E1. eexists _, _. split; [reflexivity|]. split.
      * eexists. split; [reflexivity|]. rewrite Z.eqb_eq. split.
        -- intros Z0 x. rewrite <- Fm. apply mem_empty. lia.
        -- intros Z0. destruct m as [|[k v] m]; auto. specialize (Z0 k). rewrite <- Fm in Z0.
           unfold mem in Z0. simpl in Z0. rewrite equiv_refl in Z0. discriminate.
      * constructor; simpl; auto. exists ms. auto.
    + exists s, (SNotASet K). auto.
  - (* count *)
    cbn [Sets.sstep SetsProofs.spec_out SetsProofs.spec_next].
    destruct (one i) as [(t & f & m & A & At & Af & Ag & Em & Fm)|(A & Af & Ag)]; rewrite A, Af.
    + destruct (set_count_ok (sw _ s) ms t m I Em) as (w1 & E1 & I1).
      unfold plain. rewrite E1. eexists _, _. split; [reflexivity|]. split.
      * exists (map fst m). rewrite map_length. split; auto.
        destruct (enum_of _ _ _ _ (map fst m) I Em) as [D E]; auto. split; auto. intros x. now rewrite <- Fm.
      * constructor; simpl; auto. exists ms. auto.
    + exists s, (SNotASet K). auto.
  - (* list *)
    cbn [Sets.sstep SetsProofs.spec_out SetsProofs.spec_next].
    destruct (one i) as [(t & f & m & A & At & Af & Ag & Em & Fm)|(A & Af & Ag)]; rewrite A, Af.
    + destruct (set_to_list_ok (sw _ s) ms t m I Em) as (w1 & xs & E1 & I1 & P).
      unfold plain. rewrite E1. eexists _, _. split; [reflexivity|]. split.
      * exists xs. split; auto.
        destruct (enum_of _ _ _ _ xs I Em) as [D E]; auto. split; auto. intros x. now rewrite <- Fm.
      * constructor; simpl; auto. exists ms. auto.
    + exists s, (SNotASet K). auto.
  - (* subset *)
    cbn [Sets.sstep SetsProofs.spec_out SetsProofs.spec_next].
    destruct (two i j) as [(t & u & f & g & m & m2 & A & Af & Ag & Em & Fm & Em2 & Fm2)|(A & Af)]; rewrite A.
    + rewrite Af, Ag. destruct (subset_ok t u (sw _ s) ms m m2 I Em Em2) as (w1 & b & E1 & I1 & B1).
      unfold plain. rewrite E1. eexists _, _. split; [reflexivity|]. split.
      * exists b. split; auto. rewrite B1. now apply sub_ext.
      * constructor; simpl; auto. exists ms. auto.
    + exists s, (SNotASet K). split; auto. split; auto.
      destruct (nth_error fs i), (nth_error fs j); destruct Af; congruence || auto.
  - (* proper subset *)
    cbn [Sets.sstep SetsProofs.spec_out SetsProofs.spec_next].
    destruct (two i j) as [(t & u & f & g & m & m2 & A & Af & Ag & Em & Fm & Em2 & Fm2)|(A & Af)]; rewrite A.
    + rewrite Af, Ag. destruct (subset_ok t u (sw _ s) ms m m2 I Em Em2) as (w1 & b & E1 & I1 & B1).
      destruct (subset_ok u t w1 ms m2 m I1 Em2 Em) as (w2 & c & E2 & I2 & B2).
      assert (S1 := sub_ext (mem m) f (mem m2) g Fm Fm2). assert (S2 := sub_ext (mem m2) g (mem m) f Fm2 Fm).
      unfold plain, proper_subset, sbind. rewrite E1. destruct b.
      * rewrite E2. eexists _, _. split; [reflexivity|]. split.
        -- exists (negb c). split; auto. rewrite <- S1, <- B1, <- S2, <- B2. destruct c; simpl; intuition congruence.
        -- constructor; simpl; auto. exists ms. auto.
      * eexists _, _. split; [reflexivity|]. split.
        -- exists false. split; auto. rewrite <- S1, <- B1. intuition congruence.
        -- constructor; simpl; auto. exists ms. auto.
    + exists s, (SNotASet K). split; auto. split; auto.
      destruct (nth_error fs i), (nth_error fs j); destruct Af; congruence || auto.
  - (* set=? *)
    cbn [Sets.sstep SetsProofs.spec_out SetsProofs.spec_next].
    destruct (two i j) as [(t & u & f & g & m & m2 & A & Af & Ag & Em & Fm & Em2 & Fm2)|(A & Af)]; rewrite A.
    + rewrite Af, Ag. destruct (subset_ok t u (sw _ s) ms m m2 I Em Em2) as (w1 & b & E1 & I1 & B1).
      destruct (subset_ok u t w1 ms m2 m I1 Em2 Em) as (w2 & c & E2 & I2 & B2).
      assert (S1 := sub_ext (mem m) f (mem m2) g Fm Fm2). assert (S2 := sub_ext (mem m2) g (mem m) f Fm2 Fm).
      assert (Q : (forall x, f x = g x) <-> sub K f g /\ sub K g f).
      { split; [intros E; split; intros x; rewrite E; auto|]. intros [Q1 Q2] x.
        specialize (Q1 x). specialize (Q2 x). destruct (f x), (g x); auto; symmetry; auto. }
      unfold plain, set_eq, sbind. rewrite E1. destruct b.
      * rewrite E2. eexists _, _. split; [reflexivity|]. split.
        -- exists c. split; auto. rewrite Q, <- S1, <- B1, <- S2, <- B2. intuition congruence.
        -- constructor; simpl; auto. exists ms. auto.
      * eexists _, _. split; [reflexivity|]. split.
        -- exists false. split; auto. rewrite Q, <- S1, <- B1. intuition congruence.
        -- constructor; simpl; auto. exists ms. auto.
    + exists s, (SNotASet K). split; auto. split; auto.
      destruct (nth_error fs i), (nth_error fs j); destruct Af; congruence || auto.
  - (* union *)
    cbn [Sets.sstep SetsProofs.spec_out SetsProofs.spec_next]. assert (G := args_get _ _ L is).
    destruct (args (handles K s) is) as [ts|], (get_all K fs is) as [gs|]; try contradiction.
    + destruct G as (_ & _ & G). destruct (G ms H) as (mss & A & B).
      destruct (set_union_ok ts (sw _ s) ms mss I A) as (w1 & m1 & E1 & I1 & F1).
      destruct (rel_fresh s fs ms (set_union K hash equiv ts) (fun x => existsb (fun g : mset K => g x) gs) L N I H) as (s' & C & D).
      { apply (makes_one _ _ _ _ _ _ E1 I1). intros y. rewrite F1. now apply exb_ext. }
      exists s', (SSet K (length fs)). auto.
    + exists s, (SNotASet K). auto.
  - (* intersect *)
    cbn [Sets.sstep SetsProofs.spec_out SetsProofs.spec_next]. assert (G := args_get _ _ L is).
    destruct (args (handles K s) is) as [ts|], (get_all K fs is) as [gs|]; try contradiction.
    + destruct G as (_ & _ & G). destruct (G ms H) as (mss & A & B).
      assert (M := set_intersect_ok ts (sw _ s) ms mss I A).
      destruct (rel_fresh s fs ms _ _ L N I H M) as (s' & C & D).
      exists s', (SSet K (length fs)). split; auto. split; auto.
      assert (X : forall f g, (forall y, f y = g y) -> rel s' (fs ++ [f]) -> rel s' (fs ++ [g])).
      { clear. intros f g E [L N (ms & I & H)]. constructor; auto.
        - rewrite L, !app_length. reflexivity.
        - exists ms. split; auto. intros i t k A B. apply nth_snoc in B. destruct B as [B|[B ->]].
          + eapply H; eauto. now apply nth_app_l.
          + destruct (H i t f A) as (m & C & D). { subst i. apply nth_app_len. } exists m. split; auto. intros x. now rewrite D. }
      destruct gs as [|g gs].
      * inversion B; subst. eapply X; [|exact D]. reflexivity.
      * eapply X; [|exact D]. intros y. inversion B; subst. simpl. rewrite (fab_ext _ _ H4).
        match goal with E : forall x, mem _ x = g x |- _ => rewrite E end. reflexivity.
    + exists s, (SNotASet K). auto.
  - (* subtract *)
    cbn [Sets.sstep SetsProofs.spec_out SetsProofs.spec_next]. assert (G := args_get _ _ L (i :: js)).
    destruct (args (handles K s) (i :: js)) as [ts|], (get_all K fs (i :: js)) as [gs|]; try contradiction.
    + destruct G as (L1 & L2 & G). destruct ts as [|t ts]; [discriminate|]. destruct gs as [|g gs]; [discriminate|].
      destruct (G ms H) as (mss & A & B). inversion A as [|? m ? mss' A1 A2]; subst. inversion B as [|? ? ? ? B1 B2]; subst.
      assert (M := set_subtract_ok t ts (sw _ s) ms m mss' I A1 A2).
      destruct (rel_fresh s fs ms (set_subtract K hash equiv t ts) (fun x => g x && negb (existsb (fun g : mset K => g x) gs)) L N I H) as (s' & C & D).
      { eapply makes_ext; [|exact M]. intros y. cbn beta. now rewrite B1, (exb_ext _ _ B2). }
      exists s', (SSet K (length fs)). auto.
    + exists s, (SNotASet K). auto.
  - (* symmetric difference *)
    cbn [Sets.sstep SetsProofs.spec_out SetsProofs.spec_next]. assert (G := args_get _ _ L (i :: js)).
    destruct (args (handles K s) (i :: js)) as [ts|], (get_all K fs (i :: js)) as [gs|]; try contradiction.
    + destruct G as (L1 & L2 & G). destruct ts as [|t ts]; [discriminate|]. destruct gs as [|g gs]; [discriminate|].
      destruct (G ms H) as (mss & A & B). inversion A as [|? m ? mss' A1 A2]; subst. inversion B as [|? ? ? ? B1 B2]; subst.
      assert (M := set_symdiff_ok t ts (sw _ s) ms m mss' I A1 A2).
      destruct (rel_fresh s fs ms (set_symdiff K hash equiv t ts) (fun x => fold_left xorb (map (fun g : mset K => g x) gs) (g x)) L N I H) as (s' & C & D).
      { eapply makes_ext; [|exact M]. intros y. cbn beta. now rewrite B1, (map_ext2 _ _ B2). }
      exists s', (SSet K (length fs)). auto.
    + exists s, (SNotASet K). auto.
Qed.

Lemma srun_ok : forall os s fs, rel s fs -> incl (concat (map (mentions K) os)) U ->
  exists s' rs, srun K hash equiv s os = Some (s', rs) /\ spec_run K equiv fs os rs.
Proof.
  induction os as [|o os IH]; intros s fs R HU.
  - exists s, []. split; [reflexivity|exact Logic.I].
  - simpl in HU. destruct (sstep_ok s fs o R) as (s1 & r & E & O & R1).
    { intros a A. apply HU. apply in_or_app. auto. }
    destruct (IH s1 _ R1) as (s2 & rs & E2 & O2). { intros a A. apply HU. apply in_or_app. auto. }
    exists s2, (r :: rs). cbn [srun]. rewrite E, E2. split; auto. split; auto.
Qed.

Lemma inv0 : inv (world0 K unit) [].
Proof. constructor; [exists []; apply world0_ok|]. intros [|i] m H; discriminate. Qed.

Lemma rel0 : rel (sworld0 K) [].
Proof. constructor; simpl; auto; [constructor|]. exists []. split; [exact inv0|]. intros [|i] t f H; discriminate. Qed.

End Proofs.

Lemma set_history : forall (K : Type) (hash : K -> Z) (equiv : K -> K -> bool),
  (forall a, equiv a a = true) -> (forall a b, equiv a b = equiv b a) ->
  (forall a b c, equiv a b = true -> equiv b c = true -> equiv a c = true) ->
  (forall a b, equiv a b = true -> hash a = hash b) ->
  forall os, size_ok (S (length (concat (map (mentions K) os)))) ->
  exists s rs, srun K hash equiv (sworld0 K) os = Some (s, rs) /\ spec_run K equiv [] os rs.
Proof.
  intros K hash equiv R S T C os Z.
  eapply (srun_ok K hash equiv R S T C (concat (map (mentions K) os)) Z); [apply rel0|apply incl_refl].
Qed.
