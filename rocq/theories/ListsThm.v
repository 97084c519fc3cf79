(** C17: list operations.

    Reading guide.  [list_at h v xs] says that in heap [h] the value [v] is the
    proper list of the values [xs].  [extends h h'] says that [h'] is [h] with new
    cells added at the end: every cell of [h], the cells of the argument lists in
    particular, is unchanged.  [calls f h argss rs e h'] is defined in ListsProofs.v
    and describes a left-to-right run of calls to a procedure argument.
    [keeps_pairs f] limits procedure arguments to those which return or raise, and
    do not mutate pairs. *)
From Coq Require Import ZArith NArith Bool Ascii String List Lia.
From Verif Require Import Base Outcome Arith Heap HeapM Equal EqualProofs Lists ListsProofs.
Import ListNotations.
Local Open Scope Z_scope.
Local Open Scope nat_scope.

(** [length] is the number of elements, for every value: a list gives its length, a
    non-list an error, nothing is allocated or changed. *)
Theorem C17_length fuel v h :
  match p_length fuel v h with
  | HOk r h' => h' = h /\ exists xs, list_at h v xs /\ r = VFix (Z.of_nat (length xs))
  | HErr e h' => h' = h /\ e = EArg "length" v /\ forall xs, ~ list_at h v xs
  | HUndef => False
  | HFuel => forall xs, list_at h v xs -> fuel < length xs
  end.
Proof. exact (p_length_spec fuel v h). Qed.

Theorem C17_reverse xs h v fuel : list_at h v xs -> length xs <= fuel ->
  exists r h', p_reverse fuel v h = HOk r h' /\ extends h h' /\ list_at h' r (rev xs).
Proof. exact (p_reverse_ok xs h v fuel). Qed.

(** [append] of any number of lists. *)
Theorem C17_append fuel args yss h :
  Forall2 (list_at h) args yss -> Forall (fun xs => length xs <= fuel) yss ->
  exists r h', p_append fuel args h = HOk r h' /\ extends h h' /\ list_at h' r (concat yss).
Proof. exact (p_append_ok fuel args yss h). Qed.

Theorem C17_make_list n init h : (0 <= n)%Z ->
  exists r h', p_make_list (VFix n) init h = HOk r h' /\ extends h h' /\ list_at h' r (repeat init (Z.to_nat n)).
Proof.
  intros Hn. unfold p_make_list. replace (0 <=? n)%Z with true by (symmetry; apply Z.leb_le; auto).
  destruct (make_list_ok (Z.to_nat n) init h VNull [] ltac:(constructor)) as (r & h' & E & X & L).
  rewrite app_nil_r in L. eauto.
Qed.

Theorem C17_copy_list xs h v fuel : list_at h v xs -> length xs <= S fuel ->
  exists r h', copy_list fuel v h = HOk r h' /\ extends h h' /\ list_at h' r xs.
Proof. exact (copy_list_ok xs h v fuel). Qed.

(** The calls of [(map f l1 ... lk)] and its relatives: the rows of the argument
    lists, from the first on. *)
Lemma rows_single xs : rows (length xs) [xs] = singles xs.
Proof. induction xs as [|x xs IH]; simpl; auto. rewrite IH. auto. Qed.

Theorem C17_for_each f n h v vs xss fuel : keeps_pairs f ->
  Forall2 (list_at h) (v :: vs) xss -> Forall (fun xs => length xs = n) xss -> n <= fuel ->
  exists rs e h', calls f h (rows n xss) rs e h' /\
    p_for_each fuel f v vs h = match e with None => HOk VVoid h' | Some e => HErr e h' end.
Proof.
  intros K H2 Hn Hf. unfold p_for_each.
  rewrite (bind_ok _ _ _ _ _ (check_args_ok _ _ _ _ _ _ None H2 Hn Hf (or_introl eq_refl))).
  destruct vs.
  - inversion H2; subst. inversion H4; subst. inversion Hn; subst. rewrite rows_single. now apply for_each1_ok.
  - eapply for_each_loop_ok; eauto. discriminate.
Qed.

Theorem C17_map f n h v vs xss fuel : keeps_pairs f ->
  Forall2 (list_at h) (v :: vs) xss -> Forall (fun xs => length xs = n) xss -> 2 * n <= fuel ->
  exists rs e h', calls f h (rows n xss) rs e h' /\
    match e with
    | Some e => p_map fuel f v vs h = HErr e h'
    | None => exists r h'', p_map fuel f v vs h = HOk r h'' /\ extends h' h'' /\ list_at h'' r rs
    end.
Proof.
  intros K H2 Hn Hf. unfold p_map. assert (Hf' : n <= fuel) by lia.
  rewrite (bind_ok _ _ _ _ _ (check_args_ok _ _ _ _ _ _ None H2 Hn Hf' (or_introl eq_refl))).
  destruct vs.
  - inversion H2; subst. inversion H4; subst. inversion Hn; subst. rewrite rows_single.
    apply (map1_ok f _ K h v VNull []); auto. constructor. simpl; lia.
  - apply (map_loop_ok f n K h _ xss VNull []); auto. discriminate. constructor. simpl; lia.
Qed.

(** [andmap] calls up to and including the first call returning #f, and returns #f
    exactly if there is one. *)
Theorem C17_andmap f n h v vs xss fuel : keeps_pairs f ->
  Forall2 (list_at h) (v :: vs) xss -> Forall (fun xs => length xs = n) xss -> n <= fuel ->
  exists done rest rs e h', rows n xss = done ++ rest /\ calls f h done rs e h' /\
    match e with
    | Some e => p_andmap fuel f v vs h = HErr e h'
    | None => exists b, p_andmap fuel f v vs h = HOk (if b : bool then VTrue else VFalse) h' /\
        if b then rest = [] /\ Forall (fun r => r <> VFalse) rs
        else exists rs', rs = rs' ++ [VFalse] /\ Forall (fun r => r <> VFalse) rs'
    end.
Proof.
  intros K H2 Hn Hf. unfold p_andmap.
  rewrite (bind_ok _ _ _ _ _ (check_args_ok _ _ _ _ _ _ None H2 Hn Hf (or_introl eq_refl))).
  destruct vs.
  - inversion H2; subst. inversion H4; subst. inversion Hn; subst. rewrite rows_single.
    destruct (andmap1_ok f _ K h v fuel ltac:(eassumption) Hf) as (done & rest & rs & e & h' & E & C & R).
    exists (singles done), (singles rest), rs, e, h'. subst. split; [apply map_app|]. split; auto.
    destruct e; auto. destruct R as (b & Eb & Hb). exists b. split; auto. destruct b; auto.
    destruct Hb as [-> Hb]. auto.
  - apply (andmap_loop_ok f n K h _ xss); auto. discriminate.
Qed.

(** [ormap] calls up to and including the first call returning a value other than
    #f, and returns #t exactly if there is one. *)
Theorem C17_ormap f n h v vs xss fuel : keeps_pairs f ->
  Forall2 (list_at h) (v :: vs) xss -> Forall (fun xs => length xs = n) xss -> n <= fuel ->
  exists done rest rs e h', rows n xss = done ++ rest /\ calls f h done rs e h' /\
    match e with
    | Some e => p_ormap fuel f v vs h = HErr e h'
    | None => exists b, p_ormap fuel f v vs h = HOk (if b : bool then VTrue else VFalse) h' /\
        if b then exists rs' r, rs = rs' ++ [r] /\ r <> VFalse /\ Forall (fun r => r = VFalse) rs'
        else rest = [] /\ Forall (fun r => r = VFalse) rs
    end.
Proof.
  intros K H2 Hn Hf. unfold p_ormap.
  rewrite (bind_ok _ _ _ _ _ (check_args_ok _ _ _ _ _ _ None H2 Hn Hf (or_introl eq_refl))).
  destruct vs.
  - inversion H2; subst. inversion H4; subst. inversion Hn; subst. rewrite rows_single.
    destruct (ormap1_ok f _ K h v fuel ltac:(eassumption) Hf) as (done & rest & rs & e & h' & E & C & R).
    exists (singles done), (singles rest), rs, e, h'. subst. split; [apply map_app|]. split; auto.
    destruct e; auto. destruct R as (b & Eb & Hb). exists b. split; auto. destruct b; auto.
    destruct Hb as [-> Hb]. auto.
  - apply (ormap_loop_ok f n K h _ xss); auto. discriminate.
Qed.

(** A procedure argument that leaves pairs alone leaves the argument lists alone
    over the whole run of calls. *)
Theorem C17_calls_keep_arguments f h argss rs e h' v xs :
  keeps_pairs f -> calls f h argss rs e h' -> list_at h v xs -> list_at h' v xs.
Proof. intros K C. apply list_at_kept. exact (calls_kept _ _ _ _ _ _ K C). Qed.

Theorem C17_iota n h fuel : (0 <= n)%Z -> Z.to_nat n <= fuel ->
  exists r h', p_iota fuel (VFix n) h = HOk r h' /\ extends h h' /\
    list_at h' r (map (fun i => VFix (Z.of_nat i)) (seq 0 (Z.to_nat n))).
Proof.
  intros Hn Hf. unfold p_iota. replace (0 <=? n)%Z with true by (symmetry; apply Z.leb_le; auto).
  destruct (iota_loop_ok (Z.to_nat n) h VNull [] fuel (Z.to_nat n) (le_n _) ltac:(constructor) Hf) as (r & h' & E & X & L).
  rewrite Z2Nat.id in E by auto. exists r, h'. repeat split; auto.
  rewrite app_nil_r in L. unfold fixes, upto in L. rewrite map_map in L. exact L.
Qed.

(** [enumerate]: the list of the pairs [(x . i)]. *)
Theorem C17_enumerate xs h v fuel : list_at h v xs -> 2 * length xs <= fuel ->
  exists r h' cs, p_enumerate fuel v h = HOk r h' /\ extends h h' /\ list_at h' r cs /\
    length cs = length xs /\
    forall i x, nth_error xs i = Some x ->
      exists c, nth_error cs i = Some c /\ pair_at h' c = Some (x, VFix (Z.of_nat i)).
Proof.
  intros Hl Hf. unfold p_enumerate, m_listp.
  erewrite bind_ok by (rewrite (listp_ok _ _ _ _ Hl) by lia; reflexivity). cbv iota.
  destruct (enumerate_loop_ok xs h v VNull [] [] 0%Z fuel Hl ltac:(constructor) ltac:(constructor) ltac:(simpl; lia))
    as (r & h' & cs & E & X & L & F).
  exists r, h', cs. split; [exact E|]. split; auto. split; auto. cbn [rev app] in F.
  assert (G : forall xs i0 cs, Forall2 (is_entry h') cs (numbered i0 xs) -> length cs = length xs /\
    forall i x, nth_error xs i = Some x ->
      exists c, nth_error cs i = Some c /\ pair_at h' c = Some (x, VFix (i0 + Z.of_nat i))).
  { clear. induction xs as [|x xs IH]; intros i0 cs F; inversion F as [|c p cs' ps' Hc0 F']; subst.
    - split; auto. intros [|i]; discriminate.
    - destruct (IH _ _ F') as [Hl Hi]. split; [simpl; auto|]. intros [|i] y Hy; simpl in Hy.
      + injection Hy as <-. eexists; split; [reflexivity|]. rewrite Z.add_0_r. exact Hc0.
      + destruct (Hi i y Hy) as (c2 & Hc & Hp). exists c2. split; auto.
        replace (i0 + Z.of_nat (S i))%Z with (i0 + 1 + Z.of_nat i)%Z by lia. auto. }
  apply (G xs 0%Z cs F).
Qed.

(** [cons*]: the last argument is the tail. *)
Theorem C17_cons_star x xs h tl : list_at h (last xs x) tl ->
  exists r h', l_cons_star x xs h = HOk r h' /\ extends h h' /\ list_at h' r (removelast (x :: xs) ++ tl).
Proof. intros. apply cons_star_ok; auto. Qed.

Theorem C17_list_ref h v xs n fuel : list_at h v xs -> length xs <= fuel -> (0 <= n)%Z ->
  l_list_ref fuel v (VFix n) h =
  match nth_error xs (Z.to_nat n) with
  | Some x => HOk x h
  | None => HErr (EOther "list-ref" [VFix n; v]) h
  end.
Proof.
  intros Hl Hf Hn. unfold l_list_ref. replace (0 <=? n)%Z with true by (symmetry; apply Z.leb_le; auto).
  rewrite (list_ref_ok v (VFix n) n xs h v 0%Z fuel Hl Hf) by lia. now rewrite Z.sub_0_r.
Qed.

Theorem C17_list_set h v xs n x fuel : list_at h v xs -> 2 * length xs + 1 <= fuel -> (0 <= n)%Z ->
  if (n <? Z.of_nat (length xs))%Z then
    exists r h', l_list_set fuel v (VFix n) x h = HOk r h' /\ extends h h' /\
      list_at h' r (firstn (Z.to_nat n) xs ++ x :: skipn (S (Z.to_nat n)) xs)
  else exists h', l_list_set fuel v (VFix n) x h = HErr (EOther "list-set" [VFix n; v]) h' /\ extends h h'.
Proof.
  intros Hl Hf Hn. unfold l_list_set. replace (0 <=? n)%Z with true by (symmetry; apply Z.leb_le; auto).
  pose proof (list_set_ok v (VFix n) n x xs h v 0%Z VNull [] fuel Hl ltac:(constructor) ltac:(simpl; lia) ltac:(lia)) as H.
  rewrite Z.sub_0_r in H. exact H.
Qed.

(** [filter]: one call per element, left to right; the elements whose call did not
    return #f, in order. *)
Theorem C17_filter f h v xs fuel : keeps_pairs f -> list_at h v xs -> 2 * length xs <= fuel ->
  exists rs e h', calls f h (map (fun x => [x]) xs) rs e h' /\
    match e with
    | Some e => l_filter fuel f v h = HErr e h'
    | None => exists r h'' ys, l_filter fuel f v h = HOk r h'' /\ extends h' h'' /\ list_at h'' r ys /\
        ys = map fst (filter (fun p => match snd p with VFalse => false | _ => true end) (combine xs rs))
    end.
Proof.
  intros K Hl Hf. destruct (filter_loop_ok f v xs K h v VNull [] fuel Hl ltac:(constructor) ltac:(simpl; lia))
    as (rs & e & h' & C & R).
  exists rs, e, h'. split; auto. destruct e; auto. destruct R as (r & h'' & E & X & L).
  exists r, h'', (kept_by xs rs). repeat split; auto. clear. revert rs.
  induction xs as [|x xs IH]; intros [|r rs]; auto. simpl. rewrite IH.
  destruct r; simpl; auto.
Qed.

(** [(foldl f acc xs)] calls [(f acc x)] from the first element on;
    [(foldr f acc xs)] does so from the last. *)
Theorem C17_foldl f h v xs acc fuel : keeps_pairs f -> list_at h v xs -> length xs <= fuel ->
  folds f h acc xs (l_foldl fuel f v v acc h).
Proof. intros K. now apply foldl_ok. Qed.
Theorem C17_foldr f h v xs acc fuel : keeps_pairs f -> list_at h v xs -> length xs <= fuel ->
  folds f h acc (rev xs) (l_foldr fuel f v v acc h).
Proof. intros K Hl Hf. now apply foldr_ok. Qed.

(** [member] (which returns the element, not the tail), [assoc], [index-of]: the
    first element whose datum is that of the key. *)
Theorem C17_member ext efuel k ko xs h v os fuel :
  list_at h v xs -> Forall2 (reads h) xs os -> reads h k ko ->
  Forall (fun x => osize x < efuel) os -> length xs <= fuel ->
  exists r, l_member ext efuel fuel k v h = HOk r h /\
    ((exists xs1 xs2 os1 os2, xs = xs1 ++ r :: xs2 /\ os = os1 ++ ko :: os2 /\
        length xs1 = length os1 /\ ~ In ko os1) \/
     (r = VFalse /\ ~ In ko os)).
Proof. intros. eapply member_ok; eauto. Qed.

Theorem C17_assoc ext efuel k ko h v xs ks os fuel :
  list_at h v xs -> Forall2 (fun c k' => exists d, pair_at h c = Some (k', d)) xs ks ->
  Forall2 (reads h) ks os -> reads h k ko -> osize ko < efuel -> length xs <= fuel ->
  exists r, l_assoc ext efuel fuel k v v h = HOk r h /\
    ((exists xs1 xs2 os1 os2, xs = xs1 ++ r :: xs2 /\ os = os1 ++ ko :: os2 /\
        length xs1 = length os1 /\ ~ In ko os1) \/
     (r = VFalse /\ ~ In ko os)).
Proof. intros. eapply assoc_ok; eauto. Qed.

Theorem C17_index_of ext efuel k ko h v xs os fuel :
  list_at h v xs -> Forall2 (reads h) xs os -> reads h k ko -> osize ko < efuel -> length xs <= fuel ->
  (exists os1 os2, os = os1 ++ ko :: os2 /\ ~ In ko os1 /\
     l_index_of ext efuel fuel k v 0 h = HOk (VFix (Z.of_nat (length os1))) h) \/
  (~ In ko os /\ l_index_of ext efuel fuel k v 0 h = HOk VFalse h).
Proof. intros. exact (index_of_ok ext efuel k ko xs h v os 0%Z fuel H H0 H1 H2 H3). Qed.

(** [remove] and [remove*]: the elements whose datum is none of the keys, in order.
    [keep] marks their positions. *)
Theorem C17_remove ext efuel k ko h v xs os fuel :
  list_at h v xs -> Forall2 (reads h) xs os -> reads h k ko ->
  Forall (fun x => osize x < efuel) os -> length xs <= fuel ->
  exists r h' keep, l_remove ext efuel fuel "remove" k v h = HOk r h' /\ extends h h' /\
    length keep = length xs /\
    (forall i, nth_error keep i = Some true <-> exists o, nth_error os i = Some o /\ o <> ko) /\
    list_at h' r (map fst (filter snd (combine xs keep))).
Proof.
  intros Hl Hr Hk Hs Hf. destruct (remove_ok ext efuel "remove" k ko xs h v os fuel Hl Hr Hk Hs Hf)
    as (r & h' & ys & ps & E & X & L & Rm).
  destruct (removed_all_spec [ko] xs os ys ps) as (keep & HL & HK & ->).
  - econstructor; eauto. constructor.
  - clear - Hr. induction Hr; simpl; auto.
  - exists r, h', keep. repeat split; auto; intros H.
    + apply HK in H. destruct H as (o & Ho & Hn). exists o. split; auto. intros ->; apply Hn; left; auto.
    + apply HK. destruct H as (o & Ho & Hn). exists o. split; auto. intros [C|[]]; auto.
Qed.

Theorem C17_remove_star ext efuel kv ks kos h v xs os fuel :
  list_at h kv ks -> Forall2 (reads h) ks kos ->
  list_at h v xs -> Forall2 (reads h) xs os ->
  Forall (fun x => osize x < efuel) os -> length ks + length xs < fuel ->
  exists r h' keep, l_remove_star ext efuel fuel kv v h = HOk r h' /\ extends h h' /\
    length keep = length xs /\
    (forall i, nth_error keep i = Some true <-> exists o, nth_error os i = Some o /\ ~ In o kos) /\
    list_at h' r (map fst (filter snd (combine xs keep))).
Proof.
  intros Hk Hkr Hl Hr Hs Hf. unfold l_remove_star, m_listp.
  erewrite bind_ok by (rewrite (listp_ok _ _ _ _ Hk) by lia; reflexivity). cbv iota.
  destruct (remove_star_ok ext efuel ks h kv kos v xs os fuel Hk Hkr Hl Hr Hs Hf)
    as (r & h' & ys & ps & E & X & L & Rm).
  destruct (removed_all_spec kos xs os ys ps Rm) as (keep & HL & HK & ->).
  - clear - Hr. induction Hr; simpl; auto.
  - exists r, h', keep. repeat split; auto; apply HK.
Qed.

(** ** Concrete instances of the hypotheses *)

Definition abc : heap :=
  [CPair (VFix 10) (VPtr 1); CPair (VFix 20) (VPtr 2); CPair (VFix 10) VNull; CPair (VSym (s2b "x")) VNull].
Example abc_list : list_at abc (VPtr 0) [VFix 10; VFix 20; VFix 10].
Proof. repeat (econstructor; [reflexivity|]). constructor. Qed.
Example abc_reads : Forall2 (reads abc) [VFix 10; VFix 20; VFix 10] [OFix 10; OFix 20; OFix 10].
Proof. repeat constructor. Qed.
(** A procedure argument that allocates on every call. *)
Definition box_it : proc := fun args h => HOk (VPtr (length h)) (h ++ [CBox (hd VNull args)]).
Example box_it_ok : keeps_pairs box_it.
Proof. intros args h. apply kept_snoc. Qed.
Example run_map : p_map 6 box_it (VPtr 0) [] abc =
  HOk (VPtr 12) (abc ++ [CBox (VFix 10); CPair (VPtr 4) VNull; CBox (VFix 20); CPair (VPtr 6) (VPtr 5);
                         CBox (VFix 10); CPair (VPtr 8) (VPtr 7);
                         CPair (VPtr 8) VNull; CPair (VPtr 6) (VPtr 10); CPair (VPtr 4) (VPtr 11)]).
Proof. reflexivity. Qed.
Example run_append : exists r h', p_append 9 [VPtr 0; VNull; VPtr 3] abc = HOk r h' /\
  list_at h' r [VFix 10; VFix 20; VFix 10; VSym (s2b "x")].
Proof. eexists _, _. split; [reflexivity|]. repeat (econstructor; [reflexivity|]). constructor. Qed.
Example run_remove : exists r h', l_remove (fun _ _ => None) 5 9 "remove" (VFix 10) (VPtr 0) abc = HOk r h' /\
  list_at h' r [VFix 20].
Proof. eexists _, _. split; [reflexivity|]. repeat (econstructor; [reflexivity|]). constructor. Qed.
Example run_iota : exists r h', p_iota 5 (VFix 3) [] = HOk r h' /\ list_at h' r [VFix 0; VFix 1; VFix 2].
Proof. eexists _, _. split; [reflexivity|]. repeat (econstructor; [reflexivity|]). constructor. Qed.
Print Assumptions C17_length.
Print Assumptions C17_reverse.
Print Assumptions C17_append.
Print Assumptions C17_make_list.
Print Assumptions C17_copy_list.
Print Assumptions C17_for_each.
Print Assumptions C17_map.
Print Assumptions C17_andmap.
Print Assumptions C17_ormap.
Print Assumptions C17_calls_keep_arguments.
Print Assumptions C17_iota.
Print Assumptions C17_enumerate.
Print Assumptions C17_cons_star.
Print Assumptions C17_list_ref.
Print Assumptions C17_list_set.
Print Assumptions C17_filter.
Print Assumptions C17_foldl.
Print Assumptions C17_foldr.
Print Assumptions C17_member.
Print Assumptions C17_assoc.
Print Assumptions C17_index_of.
Print Assumptions C17_remove.
Print Assumptions C17_remove_star.
