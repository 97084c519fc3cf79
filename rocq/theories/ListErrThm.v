(** C17: what the list operations do with arguments that are not lists, or not indices.

    Reading guide.  [improper h v xs t] says that in heap [h] the value [v] is the chain of
    pairs with elements [xs] whose last cdr is [t], which is neither the empty list nor a
    pair: (a b . t).  With [xs] empty, [v] itself is [t].  The heap of the result is the heap
    of the call, so nothing is allocated or changed. *)
From Coq Require Import ZArith NArith Bool Ascii String List Lia.
From Verif Require Import Base Outcome Arith Heap HeapM Equal EqualProofs Lists ListsProofs ListsThm Vectors.
Import ListNotations.
Local Open Scope Z_scope.
Local Open Scope nat_scope.

Inductive improper (h : heap) : val -> list val -> val -> Prop :=
| ImEnd t : t <> VNull -> pair_at h t = None -> improper h t [] t
| ImPair l a d xs t : nth_error h l = Some (CPair a d) -> improper h d xs t -> improper h (VPtr l) (a :: xs) t.

Lemma improper_listp h v xs t fuel : improper h v xs t -> length xs <= fuel -> listp fuel h v = Some false.
Proof.
  intros I. revert fuel. induction I as [t N P|l a d xs t E I IH]; intros fuel L.
  - destruct fuel; simpl; rewrite P; destruct t; try reflexivity; congruence.
  - simpl in L. destruct fuel as [|fuel]; [lia|]. simpl. unfold pair_at. simpl. rewrite E. apply IH. lia.
Qed.
Lemma improper_m_listp h v xs t fuel : improper h v xs t -> length xs <= fuel -> m_listp fuel v h = HOk false h.
Proof. intros I L. unfold m_listp. rewrite (improper_listp _ _ _ _ _ I L). reflexivity. Qed.
Lemma list_m_listp h v xs fuel : list_at h v xs -> length xs <= fuel -> m_listp fuel v h = HOk true h.
Proof. intros I L. unfold m_listp. rewrite (listp_ok _ _ _ _ I L). reflexivity. Qed.
(** An improper chain is not a list. *)
Lemma improper_no_list h v xs t : improper h v xs t -> forall ys, ~ list_at h v ys.
Proof. intros I. apply (listp_false h v (length xs)). eapply improper_listp; eauto. Qed.
Lemma improper_ext h h' v xs t : extends h h' -> (forall g, pair_at g t = None) -> improper h v xs t -> improper h' v xs t.
Proof.
  intros X T. induction 1 as [t N P|l a d xs t E I IH]; [constructor; auto|].
  econstructor; [|auto]. destruct X as [k ->]. rewrite nth_error_app1; auto. apply nth_error_Some. congruence.
Qed.
Lemma improper_kept h h' v xs t : pairs_kept h h' -> (forall g, pair_at g t = None) -> improper h v xs t -> improper h' v xs t.
Proof.
  intros X T. induction 1 as [t N P|l a d xs t E I IH]; [constructor; auto|].
  assert (Q := pair_at_kept _ _ (VPtr l) a d X). unfold pair_at in Q. simpl in Q. rewrite E in Q. specialize (Q eq_refl).
  destruct (nth_error h' l) as [[]|] eqn:E'; try discriminate. injection Q as -> ->. econstructor; eauto.
Qed.

(** The procedures that check their argument first. *)
Theorem C17_rejects_improper h v xs t fuel : improper h v xs t -> length xs <= fuel ->
  p_length fuel v h = HErr (EArg "length" v) h /\ p_reverse fuel v h = HErr (EArg "reverse" v) h /\
  p_enumerate fuel v h = HErr (EArg "enumerate" v) h /\ p_list_to_vector fuel v h = HErr (EArg "list->vector" v) h.
Proof.
  intros I L. assert (B := improper_m_listp _ _ _ _ _ I L).
  unfold p_length, p_reverse, p_enumerate, p_list_to_vector. rewrite !(bind_ok _ _ _ _ _ B). repeat split.
Qed.

(** [append]: the argument is blamed, and with three or more arguments the last one that is
    not a list.  Lists that have been copied before the error is found are dropped. *)
Theorem C17_append_rejects h v xs t fuel : improper h v xs t -> length xs <= fuel ->
  p_append fuel [v] h = HErr (EArg "append" v) h /\
  (forall w, p_append fuel [v; w] h = HErr (EArg "append" v) h) /\
  (forall w ys, list_at h w ys -> length ys <= fuel -> p_append fuel [w; v] h = HErr (EArg "append" v) h) /\
  (forall pre post yss, (forall g, pair_at g t = None) -> 2 < length (pre ++ v :: post) ->
     Forall2 (list_at h) post yss -> Forall (fun ys => length ys <= fuel) yss ->
     exists h', p_append fuel (pre ++ v :: post) h = HErr (EArg "append" v) h' /\ extends h h').
Proof.
  intros I L. assert (B := improper_m_listp _ _ _ _ _ I L). split; [unfold p_append; rewrite (bind_ok _ _ _ _ _ B); reflexivity|].
  split; [intros w; unfold p_append; rewrite (bind_ok _ _ _ _ _ B); reflexivity|].
  split; [intros w ys W LW; unfold p_append; rewrite (bind_ok _ _ _ _ _ (list_m_listp _ _ _ _ W LW)); cbv iota; rewrite (bind_ok _ _ _ _ _ B); reflexivity|].
  intros pre post yss T N F FL. assert (E : p_append fuel (pre ++ v :: post) = append_loop fuel VNull (rev (pre ++ v :: post))).
  { destruct (pre ++ v :: post) as [|a [|b [|c q]]]; simpl in N; try lia. reflexivity. }
  rewrite E, rev_app_distr. simpl rev. rewrite <- app_assoc. simpl app. clear E N.
  apply Forall2_rev' in F. apply Forall_rev in FL.
  assert (G : forall post yss, Forall2 (list_at h) post yss -> Forall (fun ys => length ys <= fuel) yss -> forall g acc ac, extends h g -> list_at g acc ac ->
     exists h', append_loop fuel acc (post ++ v :: rev pre) g = HErr (EArg "append" v) h' /\ extends h h').
  { clear post yss F FL. induction 1 as [|w ys post yss W F IH]; intros FL g acc ac X AC.
    - exists g. split; auto. cbn [app append_loop]. rewrite (bind_ok _ _ _ _ _ (improper_m_listp _ _ _ _ _ (improper_ext _ _ _ _ _ X T I) L)). reflexivity.
    - inversion FL as [|? ? L1 FL']; subst. cbn [app append_loop]. assert (W' := list_at_ext _ _ _ _ X W). rewrite (bind_ok _ _ _ _ _ (list_m_listp _ _ _ _ W' L1)). cbv iota.
      destruct (append2_ok ys g w acc fuel W' ltac:(lia)) as (r & g' & E & X' & AC' & _). rewrite (bind_ok _ _ _ _ _ E).
      eapply (IH FL'); [eapply extends_trans; eauto|exact (AC' _ AC)]. }
  destruct (G _ _ F FL h VNull [] (extends_refl h) ltac:(constructor)) as (h' & E & X). eauto.
Qed.

(** [for-each], [map], [andmap], [ormap]: no call is made when an argument is not a list, or
    is of another length than the lists before it. *)
Lemma check_args_bad who fuel v pre n h e : Forall (fun w => exists ys, list_at h w ys /\ length ys = n) pre -> n <= fuel ->
  (forall prev, (pre = [] -> prev = None) -> (pre <> [] -> prev = Some (Z.of_nat n)) -> forall post, check_args fuel who prev (v :: post) h = HErr e h) ->
  forall post, check_args fuel who None (pre ++ v :: post) h = HErr e h.
Proof.
  intros F N H.
  assert (G : forall q, Forall (fun w => exists ys, list_at h w ys /\ length ys = n) q ->
    (forall post, check_args fuel who (Some (Z.of_nat n)) (v :: post) h = HErr e h) ->
    forall prev, (prev = None \/ prev = Some (Z.of_nat n)) -> (q = [] -> prev = Some (Z.of_nat n)) -> forall post, check_args fuel who prev (q ++ v :: post) h = HErr e h).
  { clear F H pre. induction 1 as [|w q [ys [W LW]] F IH]; intros H prev PV QE post; [rewrite QE by auto; apply H|].
    cbn [app check_args]. rewrite (bind_ok _ _ _ _ _ (list_m_listp _ _ _ fuel W ltac:(lia))). cbv iota.
    rewrite (bind_ok _ _ _ _ _ (list_length_ok _ _ _ fuel 0 W ltac:(lia))).
    assert (E : match prev with Some p => Z.eqb p (0 + Z.of_nat (length ys)) | None => true end = true).
    { destruct PV as [-> | ->]; auto. rewrite LW. apply Z.eqb_eq. lia. }
    rewrite E. replace (0 + Z.of_nat (length ys))%Z with (Z.of_nat n) by lia. apply IH; auto. }
  destruct pre as [|w q]; intros post; [apply H; auto; congruence|]. apply G; auto; [|discriminate]. intros p. apply H; congruence.
Qed.
Theorem C17_map_rejects f h pre v post n xs t fuel : improper h v xs t -> length xs <= fuel -> n <= fuel ->
  Forall (fun w => exists ys, list_at h w ys /\ length ys = n) pre ->
  forall w ws, w :: ws = pre ++ v :: post ->
  p_for_each fuel f w ws h = HErr (EArg "for-each" v) h /\ p_map fuel f w ws h = HErr (EArg "map" v) h /\
  p_andmap fuel f w ws h = HErr (EArg "andmap" v) h /\ p_ormap fuel f w ws h = HErr (EArg "ormap" v) h.
Proof.
  intros I L N F w ws E. assert (C : forall who, check_args fuel who None (w :: ws) h = HErr (EArg who v) h).
  { intros who. rewrite E. apply (check_args_bad who fuel v pre n); auto. intros prev _ _ q. cbn [check_args]. rewrite (bind_ok _ _ _ _ _ (improper_m_listp _ _ _ _ _ I L)). reflexivity. }
  unfold p_for_each, p_map, p_andmap, p_ormap. repeat split; apply bind_err, C.
Qed.
Theorem C17_map_lengths f h pre v post n xs fuel : list_at h v xs -> length xs <= fuel -> n <= fuel -> pre <> [] -> length xs <> n ->
  Forall (fun w => exists ys, list_at h w ys /\ length ys = n) pre ->
  forall w ws, w :: ws = pre ++ v :: post ->
  p_for_each fuel f w ws h = HErr (EOther "for-each" [v]) h /\ p_map fuel f w ws h = HErr (EOther "map" [v]) h /\
  p_andmap fuel f w ws h = HErr (EOther "andmap" [v]) h /\ p_ormap fuel f w ws h = HErr (EOther "ormap" [v]) h.
Proof.
  intros I L N NE D F w ws E. assert (C : forall who, check_args fuel who None (w :: ws) h = HErr (EOther who [v]) h).
  { intros who. rewrite E. apply (check_args_bad who fuel v pre n); auto. intros prev _ PV q. rewrite (PV NE). cbn [check_args].
    rewrite (bind_ok _ _ _ _ _ (list_m_listp _ _ _ _ I L)). cbv iota. rewrite (bind_ok _ _ _ _ _ (list_length_ok _ _ _ fuel 0 I ltac:(lia))).
    replace (Z.of_nat n =? 0 + Z.of_nat (length xs))%Z with false by (symmetry; apply Z.eqb_neq; lia). reflexivity. }
  unfold p_for_each, p_map, p_andmap, p_ormap. repeat split; apply bind_err, C.
Qed.

(** Lengths and indices. *)
Theorem C17_rejects_indices k x v h fuel : (forall z, k = VFix z -> (z < 0)%Z) ->
  p_make_list k x h = HErr (EArg "length" k) h /\ p_iota fuel k h = HErr (EArg "iota" k) h /\
  l_list_ref fuel v k h = HErr (EArg "list-ref" k) h /\ l_list_set fuel v k x h = HErr (EArg "list-set" k) h.
Proof.
  intros H. destruct k; try (repeat split; reflexivity).
  match goal with |- context [VFix ?n] => specialize (H n eq_refl) end. unfold p_make_list, p_iota, l_list_ref, l_list_set. apply Z.leb_gt in H. rewrite H. repeat split.
Qed.

(** The procedures that walk the chain: the elements before the end are looked at as in a
    list, then the end is found. *)
Theorem C17_member_rejects ext efuel k h v xs t fuel : improper h v xs t -> length xs < fuel ->
  Forall (fun x => equal_p ext efuel h x k = Some false) xs ->
  l_member ext efuel fuel k v h = HErr (EArg "member" t) h.
Proof.
  intros I. revert fuel. induction I as [t N P|l a d xs t E I IH]; intros fuel L F; (destruct fuel as [|fuel]; [simpl in L; lia|]).
  - assert (NP : nullp t = false) by (destruct t; auto; congruence). cbn [l_member]. rewrite NP. unfold if_pair, pairp. rewrite P. reflexivity.
  - inversion F as [|? ? F1 F2]; subst. cbn [l_member nullp]. assert (P : pair_at h (VPtr l) = Some (a, d)) by (unfold pair_at; simpl; rewrite E; auto).
    rewrite (if_pair_ok _ _ _ _ _ _ P). st P. unfold m_equal at 1. unfold bind at 1. rewrite F1. st P. apply IH; auto. simpl in L. lia.
Qed.
Theorem C17_index_of_rejects ext efuel k h v xs t i fuel : improper h v xs t -> length xs < fuel ->
  Forall (fun x => equal_p ext efuel h k x = Some false) xs ->
  l_index_of ext efuel fuel k v i h = HErr (EArg "car" t) h.
Proof.
  intros I. revert i fuel. induction I as [t N P|l a d xs t E I IH]; intros i fuel L F; (destruct fuel as [|fuel]; [simpl in L; lia|]).
  - assert (NP : nullp t = false) by (destruct t; auto; congruence). cbn [l_index_of]. rewrite NP. unfold if_pair, pairp. rewrite P. reflexivity.
  - inversion F as [|? ? F1 F2]; subst. cbn [l_index_of nullp]. assert (P : pair_at h (VPtr l) = Some (a, d)) by (unfold pair_at; simpl; rewrite E; auto).
    rewrite (if_pair_ok _ _ _ _ _ _ P). st P. unfold m_equal at 1. unfold bind at 1. rewrite F1. st P. apply IH; auto. simpl in L. lia.
Qed.
Theorem C17_remove_rejects ext efuel who k h v xs t fuel : improper h v xs t -> length xs < fuel ->
  Forall (fun x => equal_p ext efuel h x k <> None) xs ->
  l_remove ext efuel fuel who k v h = HErr (EArg who t) h.
Proof.
  intros I. revert fuel. induction I as [t N P|l a d xs t E I IH]; intros fuel L F; (destruct fuel as [|fuel]; [simpl in L; lia|]).
  - assert (NP : nullp t = false) by (destruct t; auto; congruence). cbn [l_remove]. rewrite NP. unfold if_pair, pairp. rewrite P. reflexivity.
  - inversion F as [|? ? F1 F2]; subst. cbn [l_remove nullp]. assert (P : pair_at h (VPtr l) = Some (a, d)) by (unfold pair_at; simpl; rewrite E; auto).
    rewrite (if_pair_ok _ _ _ _ _ _ P). st P. unfold m_equal at 1. unfold bind at 1. destruct (equal_p ext efuel h a k) as [[]|]; [| |congruence]; st P;
    [apply IH; auto; simpl in L; lia|]. apply bind_err, IH; auto. simpl in L. lia.
Qed.
(** [assoc] blames the whole list, for an improper one and for an element that is not a pair. *)
Theorem C17_assoc_rejects ext efuel k h lst v xs t fuel : improper h v xs t -> length xs < fuel ->
  Forall (fun c => exists a d, pair_at h c = Some (a, d) /\ equal_p ext efuel h k a = Some false) xs ->
  l_assoc ext efuel fuel k lst v h = HErr (EArg "assoc" lst) h.
Proof.
  intros I. revert fuel. induction I as [t N P|l a d xs t E I IH]; intros fuel L F; (destruct fuel as [|fuel]; [simpl in L; lia|]).
  - assert (NP : nullp t = false) by (destruct t; auto; congruence). cbn [l_assoc]. rewrite NP. unfold if_pair, pairp. rewrite P. reflexivity.
  - inversion F as [|? ? [a1 [d1 [P1 F1]]] F2]; subst. cbn [l_assoc nullp]. assert (P : pair_at h (VPtr l) = Some (a, d)) by (unfold pair_at; simpl; rewrite E; auto).
    rewrite (if_pair_ok _ _ _ _ _ _ P). st P. rewrite (if_pair_ok _ _ _ _ _ _ P1). st P1. unfold m_equal at 1. unfold bind at 1. rewrite F1. st P. apply IH; auto. simpl in L. lia.
Qed.
Theorem C17_assoc_no_pair ext efuel k h lst v xs c ys fuel : list_at h v (xs ++ c :: ys) -> length xs < fuel -> pair_at h c = None ->
  Forall (fun c => exists a d, pair_at h c = Some (a, d) /\ equal_p ext efuel h k a = Some false) xs ->
  l_assoc ext efuel fuel k lst v h = HErr (EArg "assoc" lst) h.
Proof.
  intros I L NC F. revert v fuel I L. induction F as [|x xs [a1 [d1 [P1 F1]]] F2 IH]; intros v fuel I L; (destruct fuel as [|fuel]; [simpl in L; lia|]);
    destruct (list_at_cons_inv _ _ _ _ I) as (l & d & -> & E & Hd & P); cbn [l_assoc nullp]; rewrite (if_pair_ok _ _ _ _ _ _ P); st P.
  - unfold if_pair, pairp. rewrite NC. reflexivity.
  - rewrite (if_pair_ok _ _ _ _ _ _ P1). st P1. unfold m_equal at 1. unfold bind at 1. rewrite F1. st P. apply IH; auto. simpl in L. lia.
Qed.
(** [remove*] checks its first argument. *)
Theorem C17_remove_star_rejects ext efuel h ks ws t v fuel : improper h ks ws t -> length ws <= fuel ->
  l_remove_star ext efuel fuel ks v h = HErr (EArg "remove*" ks) h.
Proof. intros I L. unfold l_remove_star. rewrite (bind_ok _ _ _ _ _ (improper_m_listp _ _ _ _ _ I L)). reflexivity. Qed.

(** [list-ref] and [list-set] beyond the chain. *)
Theorem C17_list_ref_rejects h v xs t n fuel : improper h v xs t -> length xs <= fuel ->
  (n = Z.of_nat (length xs) -> l_list_ref fuel v (VFix n) h = HErr (EArg "car" t) h) /\
  ((Z.of_nat (length xs) < n)%Z -> length xs < fuel -> l_list_ref fuel v (VFix n) h = HErr (EArg "cdr" t) h).
Proof.
  intros I LF.
  assert (G : forall i f lst k, length xs <= f ->
    (n = i + Z.of_nat (length xs) -> list_ref_loop f lst k n v i h = HErr (EArg "car" t) h)%Z /\
    ((i + Z.of_nat (length xs) < n)%Z -> length xs < f -> list_ref_loop f lst k n v i h = HErr (EArg "cdr" t) h)).
  { clear LF fuel. induction I as [t N P|l a d xs t E I IH]; intros i f lst k LF.
    - assert (NP : nullp t = false) by (destruct t; auto; congruence). split.
      + intros ->. destruct f; cbn [list_ref_loop]; rewrite NP; replace (i =? i + Z.of_nat (length (@nil val)))%Z with true by (symmetry; apply Z.eqb_eq; simpl; lia); unfold pairp; rewrite P; reflexivity.
      + intros H L. destruct f as [|f]; [lia|]. cbn [list_ref_loop]. rewrite NP. replace (i =? n)%Z with false by (symmetry; apply Z.eqb_neq; simpl in H; lia). unfold pairp. rewrite P. reflexivity.
    - simpl in LF. destruct f as [|f]; [lia|]. assert (P : pair_at h (VPtr l) = Some (a, d)) by (unfold pair_at; simpl; rewrite E; auto).
      destruct (IH (i + 1)%Z f lst k ltac:(lia)) as [A B]. split; [intros H|intros H L]; cbn [list_ref_loop nullp];
      (replace (i =? n)%Z with false by (symmetry; apply Z.eqb_neq; simpl length in H; lia)); unfold pairp; rewrite P; st P; [apply A|apply B]; simpl length in *; lia. }
  split; [intros E|intros E L]; unfold l_list_ref; (rewrite (proj2 (Z.leb_le _ _)) by lia); [apply (G 0%Z fuel v (VFix n) LF)|apply (G 0%Z fuel v (VFix n) LF)]; lia.
Qed.

(** [filter], [foldl], [foldr] blame the whole list; the calls before the end have been made
    by the first two, none by the third.  The end is not an object in memory, so that the
    procedure cannot make a pair of it. *)
Theorem C17_filter_rejects f h v xs t fuel : keeps_pairs f -> (forall g, pair_at g t = None) -> improper h v xs t -> length xs < fuel ->
  exists rs e h', calls f h (map (fun x => [x]) xs) rs e h' /\
    exists h'', l_filter fuel f v h = HErr (match e with Some e => e | None => EArg "filter" v end) h'' /\ extends h' h''.
Proof.
  intros K T I L. unfold l_filter. generalize VNull as acc. generalize v at 1 3 as lst. intros lst.
  assert (G : forall xs, forall h v, improper h v xs t -> forall fuel acc, length xs < fuel ->
    exists rs e h', calls f h (singles xs) rs e h' /\ exists h'', l_filter_loop fuel f lst v acc h = HErr (match e with Some e => e | None => EArg "filter" lst end) h'' /\ extends h' h'').
  { clear - K T. induction xs as [|x xs IH]; intros h v I fuel acc L; (destruct fuel as [|fuel]; [simpl in L; lia|]); inversion I as [? N P|l a d ? ? E I']; subst.
    - exists [], None, h. split; [constructor|]. exists h. split; [|apply extends_refl]. assert (NP : nullp t = false) by (destruct t; auto; congruence).
      cbn [l_filter_loop]. rewrite NP. unfold if_pair, pairp. rewrite P. reflexivity.
    - assert (P : pair_at h (VPtr l) = Some (x, d)) by (unfold pair_at; simpl; rewrite E; auto). cbn [l_filter_loop nullp].
      rewrite (if_pair_ok _ _ _ _ _ _ P). st P.
      destruct (keeps_cases f [x] h K) as [(r & h1 & Ec & Kc)|(e & h1 & Ec & Kc)].
      + rewrite (bind_ok _ _ _ _ _ Ec). assert (I1 := improper_kept _ _ _ _ _ Kc T I'). destruct (truthy r).
        * st (pair_at_kept _ _ _ _ _ Kc P). stc.
          destruct (IH _ _ (improper_ext _ _ _ _ _ (extends_snoc h1 (CPair x acc)) T I1) fuel (VPtr (length h1)) ltac:(simpl in L; lia)) as (rs & e & h' & C & h2 & E2 & X2).
          destruct xs as [|x' xs'].
          -- inversion C; subst. exists [r], None, h1. split; [econstructor; eauto using extends_refl; constructor|]. exists h2. split; auto.
             eapply extends_trans; [apply extends_snoc|exact X2].
          -- exists (r :: rs), e, h'. split; [|eauto]. change (calls f h ([[x]] ++ singles (x' :: xs')) ([r] ++ rs) e h').
             eapply (calls_app f h [[x]] [r] h1); [econstructor; eauto using extends_refl; constructor| |exact C|discriminate]. apply extends_snoc.
        * st (pair_at_kept _ _ _ _ _ Kc P). destruct (IH _ _ I1 fuel acc ltac:(simpl in L; lia)) as (rs & e & h' & C & h2 & E2 & X2).
          exists (r :: rs), e, h'. split; [econstructor; eauto using extends_refl|eauto].
      + exists [], (Some e), h1. split; [econstructor; eauto using extends_refl|]. exists h1. split; [apply (bind_err _ _ _ _ _ Ec)|apply extends_refl]. }
  intros acc. exact (G xs h v I fuel acc L).
Qed.
Theorem C17_foldl_rejects f h v xs t acc fuel : keeps_pairs f -> (forall g, pair_at g t = None) -> improper h v xs t -> length xs < fuel ->
  exists out, folds f h acc xs out /\
    l_foldl fuel f v v acc h = match out with HOk _ h' => HErr (EArg "foldl" v) h' | o => o end.
Proof.
  intros K T I L. generalize v at 1 3 as lst. intros lst. revert h v I acc fuel L.
  induction xs as [|x xs IH]; intros h v I acc fuel L; (destruct fuel as [|fuel]; [simpl in L; lia|]); inversion I as [? N P|l a d ? ? E I']; subst.
  - exists (HOk acc h). split; [constructor|]. assert (NP : nullp t = false) by (destruct t; auto; congruence). cbn [l_foldl]. rewrite NP. unfold if_pair, pairp. rewrite P. reflexivity.
  - assert (P : pair_at h (VPtr l) = Some (x, d)) by (unfold pair_at; simpl; rewrite E; auto). cbn [l_foldl nullp].
    rewrite (if_pair_ok _ _ _ _ _ _ P). st P. st P. destruct (keeps_cases f [acc; x] h K) as [(r & h1 & Ec & Kc)|(e & h1 & Ec & Kc)].
    + rewrite (bind_ok _ _ _ _ _ Ec). destruct (IH _ _ (improper_kept _ _ _ _ _ Kc T I') r fuel ltac:(simpl in L; lia)) as (out & F & R). exists out. split; auto. econstructor; eauto.
    + exists (HErr e h1). split; [now constructor|]. rewrite (bind_err _ _ _ _ _ Ec). reflexivity.
Qed.
Theorem C17_foldr_rejects f h v xs t acc fuel : improper h v xs t -> length xs < fuel -> l_foldr fuel f v v acc h = HErr (EArg "foldr" v) h.
Proof.
  intros I L. generalize v at 1 3 as lst. intros lst. revert fuel L. induction I as [t N P|l a d xs t E I IH]; intros fuel L; (destruct fuel as [|fuel]; [simpl in L; lia|]).
  - assert (NP : nullp t = false) by (destruct t; auto; congruence). cbn [l_foldr]. rewrite NP. unfold if_pair, pairp. rewrite P. reflexivity.
  - assert (P : pair_at h (VPtr l) = Some (a, d)) by (unfold pair_at; simpl; rewrite E; auto). cbn [l_foldr nullp].
    rewrite (if_pair_ok _ _ _ _ _ _ P). st P. apply bind_err, IH. simpl in L. lia.
Qed.
(** [list-set] past the end of the chain. *)
Theorem C17_list_set_rejects h v xs t n x fuel : improper h v xs t -> (forall g, pair_at g t = None) -> length xs <= fuel ->
  (n = Z.of_nat (length xs) -> exists h', l_list_set fuel v (VFix n) x h = HErr (EArg "cdr" t) h' /\ extends h h') /\
  ((Z.of_nat (length xs) < n)%Z -> length xs < fuel -> exists h', l_list_set fuel v (VFix n) x h = HErr (EArg "list-set" v) h' /\ extends h h').
Proof.
  intros I T LF.
  assert (G : forall xs h v i f lst k acc, improper h v xs t -> length xs <= f ->
    (n = i + Z.of_nat (length xs) -> exists h', list_set_loop f lst k n x v i acc h = HErr (EArg "cdr" t) h' /\ extends h h')%Z /\
    ((i + Z.of_nat (length xs) < n)%Z -> length xs < f -> exists h', list_set_loop f lst k n x v i acc h = HErr (EArg "list-set" lst) h' /\ extends h h')).
  { clear - T. induction xs as [|a xs IH]; intros h v i f lst k acc I LF; inversion I as [? N P|l ? d ? ? E I']; subst.
    - assert (NP : nullp t = false) by (destruct t; auto; congruence). split.
      + intros H. exists h. split; [|apply extends_refl]. destruct f; cbn [list_set_loop]; rewrite NP; replace (i =? n)%Z with true by (symmetry; apply Z.eqb_eq; simpl in H; lia);
          unfold if_pair, pairp; rewrite P; reflexivity.
      + intros H L. exists h. split; [|apply extends_refl]. destruct f as [|f]; [lia|]. cbn [list_set_loop]. rewrite NP. replace (i =? n)%Z with false by (symmetry; apply Z.eqb_neq; simpl in H; lia).
        unfold if_pair, pairp. rewrite P. reflexivity.
    - simpl in LF. destruct f as [|f]; [lia|]. assert (P : pair_at h (VPtr l) = Some (a, d)) by (unfold pair_at; simpl; rewrite E; auto).
      assert (X := extends_snoc h (CPair a acc)). destruct (IH _ _ (i + 1)%Z f lst k (VPtr (length h)) (improper_ext _ _ _ _ _ X T I') ltac:(lia)) as [A B].
      split; [intros H|intros H L]; cbn [list_set_loop nullp];
      (replace (i =? n)%Z with false by (symmetry; apply Z.eqb_neq; simpl length in H; lia)); rewrite (if_pair_ok _ _ _ _ _ _ P); st P; st P; stc;
      [destruct A as (h' & R & X')|destruct B as (h' & R & X')]; simpl length in *; try lia; exists h'; (split; [exact R|eapply extends_trans; eauto]). }
  unfold l_list_set. destruct (G xs h v 0%Z fuel v (VFix n) VNull I LF) as [A B].
  split; [intros E|intros E L]; (rewrite (proj2 (Z.leb_le _ _)) by lia); [apply A|apply B]; lia.
Qed.

(** ** The association lists of the C code

    [entries h v ps]: [v] is a list of pairs, with the keys and values [ps].  Setting a key
    gives a list with the same keys in the same order, the new one at the end if it is not
    there; the first entry of the key has the new value, the others are as they were, and
    the list given is unchanged. *)
Definition entries (h : heap) (v : val) (ps : list (val * val)) : Prop :=
  exists cs, list_at h v cs /\ Forall2 (fun c p => pair_at h c = Some p) cs ps.
Fixpoint put (k x : val) (ps : list (val * val)) : list (val * val) :=
  match ps with
  | [] => [(k, x)]
  | (a, b) :: r => if eqp a k then (a, x) :: r else (a, b) :: put k x r
  end.
Lemma entries_ext h h' v ps : extends h h' -> entries h v ps -> entries h' v ps.
Proof.
  intros X (cs & L & F). exists cs. split; [eapply list_at_ext; eauto|]. eapply Forall2_imp; [|exact F]. intros c p P. destruct p. eapply pair_at_kept; [apply extends_kept; exact X|exact P].
Qed.
Theorem C17_assq_ref h v ps k fuel : entries h v ps -> length ps <= fuel ->
  match find (fun p => eqp (fst p) k) ps with
  | Some p => exists c, assq_ref fuel v k h = HOk c h /\ pair_at h c = Some p
  | None => assq_ref fuel v k h = HOk VFalse h
  end.
Proof.
  intros (cs & L & F). revert v fuel L. induction F as [|c [a b] cs ps P F IH]; intros v fuel L N.
  - apply list_at_nil in L. subst. destruct fuel; reflexivity.
  - destruct (list_at_cons_inv _ _ _ _ L) as (l & d & -> & E & Hd & Pv). simpl in N. destruct fuel as [|fuel]; [lia|]. cbn [assq_ref nullp find fst].
    st Pv. st P. destruct (eqp a k); [eauto|]. st Pv. apply IH; auto. lia.
Qed.
Lemma kept_upd h0 h l c : pairs_kept h0 h -> length h0 <= l -> pairs_kept h0 (upd_cell l c h).
Proof. intros [KL K] L. split; [rewrite upd_cell_length; auto|]. intros m a d E. rewrite upd_cell_ne; [apply K; auto|]. assert (m < length h0) by (apply nth_error_Some; congruence). lia. Qed.
Lemma assq_set_loop_ok k x h0 ps : forall v cs, list_at h0 v cs -> Forall2 (fun c p => pair_at h0 c = Some p) cs ps ->
  forall fuel h lt c0, length ps <= fuel -> pairs_kept h0 h -> length h0 <= length h -> length h0 <= lt -> nth_error h lt = Some (CPair c0 VNull) ->
  exists h' d, assq_set_loop fuel v (VPtr lt) k x h = HOk tt h' /\ length h <= length h' /\ (forall l, l <> lt -> l < length h -> nth_error h' l = nth_error h l) /\
    nth_error h' lt = Some (CPair c0 d) /\ entries h' d (put k x ps).
Proof.
  assert (SET : forall h lt c0 d p, nth_error h lt = Some (CPair c0 d) -> m_set_cdr (VPtr lt) p h = HOk tt (upd_cell lt (CPair c0 p) h)).
  { intros h lt c0 d p E. unfold m_set_cdr, pair_at. simpl. rewrite E. reflexivity. }
  induction ps as [|[a b] ps IH]; intros v cs L F fuel h lt c0 N K LH LT E; inversion F as [|c ? cs' ? P F']; subst.
  - apply list_at_nil in L. subst. assert (LL : lt < length h) by (apply nth_error_Some; congruence).
    set (h1 := h ++ [CPair k x]). set (h2 := h1 ++ [CPair (VPtr (length h)) VNull]).
    assert (E2 : nth_error h2 lt = Some (CPair c0 VNull)) by (unfold h2, h1; rewrite nth_error_app1, nth_error_app1; auto; rewrite app_length; simpl; lia).
    exists (upd_cell lt (CPair c0 (VPtr (length h1))) h2), (VPtr (length h1)). split; [|split; [|split; [|split]]].
    + destruct fuel; cbn [assq_set_loop nullp]; stc; stc; fold h1; fold h2; apply (SET _ _ _ _ _ E2).
    + rewrite upd_cell_length. unfold h2, h1. rewrite !app_length. lia.
    + intros l NL LL2. rewrite upd_cell_ne by congruence. unfold h2, h1. rewrite nth_error_app1, nth_error_app1; auto. rewrite app_length; simpl; lia.
    + apply upd_cell_eq. unfold h2, h1. rewrite !app_length. lia.
    + assert (A1 : nth_error (upd_cell lt (CPair c0 (VPtr (length h1))) h2) (length h1) = Some (CPair (VPtr (length h)) VNull)).
      { rewrite upd_cell_ne by (unfold h1; rewrite app_length; simpl; lia). apply nth_snoc_new. }
      assert (A2 : nth_error (upd_cell lt (CPair c0 (VPtr (length h1))) h2) (length h) = Some (CPair k x)).
      { rewrite upd_cell_ne by lia. unfold h2. rewrite nth_error_app1 by (unfold h1; rewrite app_length; simpl; lia). apply nth_snoc_new. }
      exists [VPtr (length h)]. split; [econstructor; [exact A1|constructor]|]. constructor; [|constructor]. unfold pair_at. simpl. rewrite A2. reflexivity.
  - destruct (list_at_cons_inv _ _ _ _ L) as (lv & d & -> & Ev & Hd & Pv). simpl in N. destruct fuel as [|fuel]; [lia|]. assert (LL : lt < length h) by (apply nth_error_Some; congruence).
    cbn [assq_set_loop nullp put]. st (pair_at_kept _ _ _ _ _ K Pv). st (pair_at_kept _ _ _ _ _ K P). destruct (eqp a k).
    + stc. set (h1 := h ++ [CPair a x]). assert (K1 : pairs_kept h0 h1) by (eapply kept_trans; [exact K|apply kept_snoc]).
      st (pair_at_kept _ _ _ _ _ K1 Pv). stc. set (h2 := h1 ++ [CPair (VPtr (length h)) d]). assert (K2 : pairs_kept h0 h2) by (eapply kept_trans; [exact K1|apply kept_snoc]).
      assert (E2 : nth_error h2 lt = Some (CPair c0 VNull)) by (unfold h2, h1; rewrite nth_error_app1, nth_error_app1; auto; rewrite app_length; simpl; lia).
      exists (upd_cell lt (CPair c0 (VPtr (length h1))) h2), (VPtr (length h1)). assert (K3 := kept_upd _ _ lt (CPair c0 (VPtr (length h1))) K2 LT).
      split; [|split; [|split; [|split]]].
      * apply (SET _ _ _ _ _ E2).
      * rewrite upd_cell_length. unfold h2, h1. rewrite !app_length. lia.
      * intros l NL LL2. rewrite upd_cell_ne by congruence. unfold h2, h1. rewrite nth_error_app1, nth_error_app1; auto. rewrite app_length; simpl; lia.
      * apply upd_cell_eq. unfold h2, h1. rewrite !app_length. lia.
      * assert (A1 : nth_error (upd_cell lt (CPair c0 (VPtr (length h1))) h2) (length h1) = Some (CPair (VPtr (length h)) d)).
        { rewrite upd_cell_ne by (unfold h1; rewrite app_length; simpl; lia). apply nth_snoc_new. }
        assert (A2 : nth_error (upd_cell lt (CPair c0 (VPtr (length h1))) h2) (length h) = Some (CPair a x)).
        { rewrite upd_cell_ne by lia. unfold h2. rewrite nth_error_app1 by (unfold h1; rewrite app_length; simpl; lia). apply nth_snoc_new. }
        exists (VPtr (length h) :: cs'). split; [econstructor; [exact A1|eapply list_at_kept; eauto]|]. constructor; [unfold pair_at; simpl; rewrite A2; reflexivity|].
        eapply Forall2_imp; [|exact F']. intros c1 [? ?] P1. eapply pair_at_kept; eauto.
    + stc. set (h1 := h ++ [CPair c VNull]). assert (K1 : pairs_kept h0 h1) by (eapply kept_trans; [exact K|apply kept_snoc]).
      assert (E1 : nth_error h1 lt = Some (CPair c0 VNull)) by (unfold h1; rewrite nth_error_app1; auto).
      rewrite (bind_ok _ _ _ _ _ (SET _ _ _ _ _ E1)). set (h2 := upd_cell lt _ h1). assert (K2 : pairs_kept h0 h2) by (apply kept_upd; auto).
      st (pair_at_kept _ _ _ _ _ K2 Pv). assert (L1 : length h1 = S (length h)) by (unfold h1; rewrite app_length; simpl; lia). assert (L2 : length h2 = S (length h)) by (unfold h2; rewrite upd_cell_length; auto).
      assert (E2 : nth_error h2 (length h) = Some (CPair c VNull)) by (unfold h2; rewrite upd_cell_ne by lia; apply nth_snoc_new).
      destruct (IH d cs' Hd F' fuel h2 (length h) c ltac:(lia) K2 ltac:(lia) ltac:(lia) E2) as (h' & d' & R & LN & KE & ET & EN).
      exists h', (VPtr (length h)). split; [exact R|]. split; [lia|]. split; [|split].
      * intros l NL LL2. rewrite KE by lia. unfold h2. rewrite upd_cell_ne by congruence. unfold h1. rewrite nth_error_app1; auto.
      * rewrite KE by lia. apply upd_cell_eq. lia.
      * assert (KK : pairs_kept h0 h').
        { split; [lia|]. intros l aa dd Q. assert (l < length h0) by (apply nth_error_Some; congruence). rewrite KE by lia. apply K2. exact Q. }
        destruct EN as (es & LE & FE). exists (c :: es). split; [econstructor; eauto|]. constructor; [eapply pair_at_kept; eauto|exact FE].
Qed.
Theorem C17_assq_set h v ps k x fuel : entries h v ps -> length ps <= S fuel ->
  exists r h', assq_set fuel v k x h = HOk r h' /\ (forall l, l < length h -> nth_error h' l = nth_error h l) /\ entries h' r (put k x ps).
Proof.
  intros (cs & L & F) N. destruct F as [|c [a b] cs ps P F].
  - apply list_at_nil in L. subst. exists (VPtr (S (length h))), ((h ++ [CPair k x]) ++ [CPair (VPtr (length h)) VNull]). unfold assq_set. cbn [nullp]. stc.
    split; [unfold m_cons, m_alloc; rewrite app_length; simpl; do 2 f_equal; lia|].
    split; [intros l H; rewrite nth_error_app1, nth_error_app1; auto; rewrite app_length; simpl; lia|]. exists [VPtr (length h)]. split.
    + econstructor; [|constructor]. replace (S (length h)) with (length (h ++ [CPair k x])) by (rewrite app_length; simpl; lia). apply nth_snoc_new.
    + constructor; [|constructor]. unfold pair_at. simpl. rewrite nth_error_app1 by (rewrite app_length; simpl; lia). rewrite nth_snoc_new. reflexivity.
  - destruct (list_at_cons_inv _ _ _ _ L) as (lv & d & -> & Ev & Hd & Pv). unfold assq_set. cbn [nullp put]. st Pv. st P. destruct (eqp a k).
    + stc. set (h1 := h ++ [CPair a x]). st (pair_at_kept _ _ _ _ _ (kept_snoc h (CPair a x)) Pv). exists (VPtr (length h1)), (h1 ++ [CPair (VPtr (length h)) d]). split; [reflexivity|].
      assert (K : pairs_kept h (h1 ++ [CPair (VPtr (length h)) d])) by (eapply kept_trans; apply kept_snoc).
      split; [intros l H; unfold h1; rewrite nth_error_app1, nth_error_app1; auto; rewrite app_length; simpl; lia|].
      exists (VPtr (length h) :: cs). split; [econstructor; [apply nth_snoc_new|eapply list_at_kept; eauto]|]. constructor.
      * unfold pair_at. simpl. rewrite nth_error_app1 by (unfold h1; rewrite app_length; simpl; lia). unfold h1. rewrite nth_snoc_new. reflexivity.
      * eapply Forall2_imp; [|exact F]. intros c1 [? ?] P1. eapply pair_at_kept; eauto.
    + stc. set (h1 := h ++ [CPair c VNull]). st (pair_at_kept _ _ _ _ _ (kept_snoc h (CPair c VNull)) Pv).
      destruct (assq_set_loop_ok k x h ps d cs Hd F fuel h1 (length h) c) as (h' & d' & R & LN & KE & ET & EN); [simpl in N; lia|apply kept_snoc|unfold h1; rewrite app_length; lia|lia|apply nth_snoc_new|].
      exists (VPtr (length h)), h'. split; [rewrite (bind_ok _ _ _ _ _ R); reflexivity|].
      assert (L1 : length h1 = S (length h)) by (unfold h1; rewrite app_length; simpl; lia).
      assert (KE' : forall l, l < length h -> nth_error h' l = nth_error h l) by (intros l H; rewrite KE by lia; unfold h1; rewrite nth_error_app1; auto).
      split; auto. destruct EN as (es & LE & FE). exists (c :: es). split; [econstructor; eauto|]. constructor; [|exact FE].
      eapply (pair_at_kept h); [|exact P]. split; [lia|]. intros l aa dd Q. rewrite KE'; auto. apply nth_error_Some. congruence.
Qed.

(** (1 2 . 3) and ((a . 1) (b . 2)). *)
Definition ex_improper : heap := [CPair (VFix 2) (VFix 3); CPair (VFix 1) (VPtr 0)].
Example C17_improper_met : improper ex_improper (VPtr 1) [VFix 1; VFix 2] (VFix 3) /\ (forall g, pair_at g (VFix 3) = None).
Proof. split; [|reflexivity]. econstructor; [reflexivity|]. econstructor; [reflexivity|]. constructor; [discriminate|reflexivity]. Qed.
Example C17_improper_runs :
  p_reverse 5 (VPtr 1) ex_improper = HErr (EArg "reverse" (VPtr 1)) ex_improper /\
  l_member (fun _ _ => None) 5 5 (VFix 7) (VPtr 1) ex_improper = HErr (EArg "member" (VFix 3)) ex_improper /\
  l_list_ref 5 (VPtr 1) (VFix 2) ex_improper = HErr (EArg "car" (VFix 3)) ex_improper.
Proof. repeat split. Qed.
Definition ex_alist : heap :=
  [CPair (VSym (s2b "a")) (VFix 1); CPair (VSym (s2b "b")) (VFix 2); CPair (VPtr 1) VNull; CPair (VPtr 0) (VPtr 2)].
Example C17_entries_met : entries ex_alist (VPtr 3) [(VSym (s2b "a"), VFix 1); (VSym (s2b "b"), VFix 2)].
Proof. exists [VPtr 0; VPtr 1]. split; [repeat (econstructor; [reflexivity|]); constructor|repeat constructor]. Qed.
Example C17_put_ex : put (VSym (s2b "b")) (VFix 9) [(VSym (s2b "a"), VFix 1); (VSym (s2b "b"), VFix 2)] = [(VSym (s2b "a"), VFix 1); (VSym (s2b "b"), VFix 9)].
Proof. reflexivity. Qed.

Print Assumptions C17_rejects_improper.
Print Assumptions C17_append_rejects.
Print Assumptions C17_map_rejects.
Print Assumptions C17_map_lengths.
Print Assumptions C17_rejects_indices.
Print Assumptions C17_member_rejects.
Print Assumptions C17_index_of_rejects.
Print Assumptions C17_remove_rejects.
Print Assumptions C17_assoc_rejects.
Print Assumptions C17_assoc_no_pair.
Print Assumptions C17_remove_star_rejects.
Print Assumptions C17_list_ref_rejects.
Print Assumptions C17_filter_rejects.
Print Assumptions C17_foldl_rejects.
Print Assumptions C17_foldr_rejects.
Print Assumptions C17_list_set_rejects.
Print Assumptions C17_assq_ref.
Print Assumptions C17_assq_set.
