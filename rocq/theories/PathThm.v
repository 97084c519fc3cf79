(** C47: build-path undoes path->list. *)
From Coq Require Import Ascii String List Arith Bool Lia.
From Verif Require Import Path.
Import ListNotations.
Local Open Scope list_scope.

(** ** Specification *)

(** The path ends with a separator: a slash after something other than a slash. *)
Definition trailing_separator (s : str) : Prop := exists p c, s = p ++ [c; slash] /\ c <> slash.

(** The elements of a path: a slash separates the element before it from what
    follows; a slash with no element before it is an element itself. *)
Inductive elements : str -> list str -> Prop :=
| el_nil : elements [] []
| el_last e : e <> [] -> ~ In slash e -> elements e [e]
| el_sep e r xs : e <> [] -> ~ In slash e -> elements r xs -> elements (e ++ slash :: r) (e :: xs)
| el_slash r xs : elements r xs -> elements (slash :: r) ([slash] :: xs).

(** ** Proofs *)

Lemma slash_dec (c : ascii) : Ascii.eqb c slash = true <-> c = slash.
Proof. apply Ascii.eqb_eq. Qed.

Lemma find_slash_none : forall fuel s i, List.length s < fuel + i -> find_slash fuel s i = None -> ~ In slash (skipn i s).
Proof.
  induction fuel as [|f IH]; intros s i L H I.
  - rewrite skipn_all2 in I by lia. destruct I.
  - simpl in H. destruct (nth_error s i) as [c|] eqn:E.
    + destruct (Ascii.eqb c slash) eqn:Q; [discriminate|].
      assert (SK : skipn i s = c :: skipn (S i) s).
      { clear -E. revert i E. induction s as [|a s IHs]; intros [|i] E; simpl in *; try discriminate.
        - now inversion E. - now apply IHs. }
      rewrite SK in I. destruct I as [E2|I]; [subst c|].
      * rewrite Ascii.eqb_refl in Q. discriminate.
      * apply (IH s (S i)); auto. lia.
    + apply nth_error_None in E. rewrite skipn_all2 in I by lia. destruct I.
Qed.

Lemma find_slash_some : forall fuel s i j, find_slash fuel s i = Some j ->
  i <= j /\ nth_error s j = Some slash /\ forall k, i <= k < j -> nth_error s k <> Some slash.
Proof.
  induction fuel as [|f IH]; intros s i j H; [discriminate|].
  simpl in H. destruct (nth_error s i) as [c|] eqn:E; [|discriminate].
  destruct (Ascii.eqb c slash) eqn:Q.
  - inversion H; subst. apply slash_dec in Q. subst. split; [lia|]. split; auto. intros; lia.
  - destruct (IH _ _ _ H) as (A & B & C). split; [lia|]. split; auto. intros k Hk.
    destruct (Nat.eq_dec k i) as [->|]; [|apply C; lia]. rewrite E. intros [= ->]. rewrite Ascii.eqb_refl in Q. discriminate.
Qed.

Lemma in_firstn_nth {A} (x : A) n l : In x (firstn n l) -> exists k, k < n /\ nth_error l k = Some x.
Proof.
  revert n. induction l as [|a l IH]; intros [|n] H; simpl in H; try contradiction.
  destruct H as [->|H]; [exists 0; split; [lia|auto]|]. destruct (IH _ H) as (k & L & E). exists (S k). split; [lia|auto].
Qed.

Lemma split_nth (s : str) i c : nth_error s i = Some c -> s = firstn i s ++ c :: skipn (S i) s.
Proof.
  revert i. induction s as [|a s IH]; intros [|i] H; try discriminate; simpl in *.
  - now inversion H. - now rewrite <- (IH i H).
Qed.

Lemma list_loop_ok : forall fuel s acc, List.length s <= fuel ->
  exists xs, list_loop fuel s acc = Some (rev acc ++ xs) /\ elements s xs.
Proof.
  induction fuel as [|f IH]; intros s acc L.
  - destruct s; [|simpl in L; lia]. exists []. simpl. rewrite app_nil_r. split; auto. constructor.
  - cbn [list_loop]. destruct s as [|c s']. { exists []. simpl. rewrite app_nil_r. split; auto. constructor. }
    set (s := c :: s') in *. assert (Z0 : List.length s =? 0 = false) by reflexivity. rewrite Z0.
    assert (NE : s <> []) by discriminate.
    destruct (find_slash (S (List.length s)) s 0) as [i|] eqn:E.
    + destruct (find_slash_some _ _ _ _ E) as (_ & N & M). assert (Li : i < List.length s) by (apply nth_error_Some; congruence).
      assert (SP := split_nth _ _ _ N).
      destruct (Nat.eqb_spec i 0) as [->|I0].
      * assert (X : substr s 1 (List.length s) = s'). { unfold substr, s. simpl. rewrite Nat.sub_0_r. apply firstn_all. }
        rewrite X. assert (c = slash) by (simpl in N; congruence). subst c.
        destruct (IH s' ([slash] :: acc)) as (xs & E2 & EL). { simpl in L. lia. }
        exists ([slash] :: xs). split.
        { etransitivity; [exact E2|]. simpl. now rewrite <- app_assoc. }
        now apply el_slash.
      * assert (X : substr s (i + 1) (List.length s) = skipn (S i) s).
        { unfold substr. rewrite Nat.add_1_r. apply firstn_all2. rewrite skipn_length. lia. }
        assert (Y : substr s 0 i = firstn i s). { unfold substr. now rewrite Nat.sub_0_r. }
        rewrite X, Y. destruct (IH (skipn (S i) s) (firstn i s :: acc)) as (xs & E2 & EL).
        { rewrite skipn_length. simpl in *. lia. }
        exists (firstn i s :: xs). split.
        { etransitivity; [exact E2|]. simpl. now rewrite <- app_assoc. }
        rewrite SP at 1. apply el_sep; auto.
        -- intros Z. apply (f_equal (@List.length _)) in Z. rewrite firstn_length in Z. simpl in Z, Li. lia.
        -- intros I. apply in_firstn_nth in I. destruct I as (k & Lk & Ek). exact (M k ltac:(lia) Ek).
    + apply find_slash_none in E; [|lia]. simpl in E.
      destruct (IH [] (s :: acc)) as (xs & E2 & EL). { simpl; lia. }
      assert (xs = []).
      { inversion EL as [|e A B Q|e r ys A B C Q|]; auto; destruct e; congruence || discriminate. }
      subst xs. exists [s]. split. { etransitivity; [exact E2|]. simpl. now rewrite app_nil_r. }
      apply el_last; auto.
Qed.

Lemma path_list_elements s : exists xs, path_list s = Some xs /\ elements s xs.
Proof. destruct (list_loop_ok (List.length s) s [] (le_n _)) as (xs & E & H). exists xs. auto. Qed.

(** The text that build-path produces after the pieces in [accum]. *)
Lemma ends_slash_last p c : ends_slash (p ++ [c]) = Some (Ascii.eqb c slash).
Proof.
  unfold ends_slash. rewrite app_length. simpl. rewrite Nat.add_sub.
  rewrite nth_error_app2 by lia. rewrite Nat.sub_diag. reflexivity.
Qed.

Lemma ends_slash_elem e : e <> [] -> ~ In slash e -> ends_slash e = Some false.
Proof.
  intros NE NI. destruct (exists_last NE) as (p & c & ->). rewrite ends_slash_last.
  destruct (Ascii.eqb c slash) eqn:Q; auto. apply slash_dec in Q. subst. destruct NI. apply in_or_app. right. now left.
Qed.

(** [kept s]: the path that building the elements of [s] gives. *)
Lemma build_elems : forall s xs, elements s xs -> forall a acc,
  a <> [] -> (ends_slash a = Some true \/ ends_slash a = Some false) ->
  exists ps, build_loop xs (a :: acc) = Some ps /\
    (s = [] -> List.concat ps = List.concat (rev (a :: acc))) /\
    (s <> [] -> exists s', List.concat ps = List.concat (rev (a :: acc)) ++ (if match ends_slash a with Some true => true | _ => false end then s' else slash :: s') /\
       (s' = s \/ exists p c, s = p ++ [c; slash] /\ c <> slash /\ s' = p ++ [c])).
Proof.
  induction 1 as [|e NE NI|e r xs NE NI EL IH|r xs EL IH]; intros a acc NA HA.
  - simpl. eexists. split; [reflexivity|]. split; [auto|congruence].
  - assert (L : List.length e =? 0 = false). { apply Nat.eqb_neq. destruct e; simpl; congruence. }
    cbn [build_loop]. rewrite L. destruct HA as [HA|HA]; rewrite HA; eexists; (split; [reflexivity|]); (split; [congruence|]);
      intros _; exists e; (split; [|auto]); simpl; rewrite !concat_app; simpl; rewrite ?app_nil_r, <- ?app_assoc; reflexivity.
  - assert (L : List.length e =? 0 = false). { apply Nat.eqb_neq. destruct e; simpl; congruence. }
    cbn [build_loop]. rewrite L. assert (HE := ends_slash_elem e NE NI).
    assert (R : forall acc', exists ps, build_loop xs (e :: acc') = Some ps /\
       exists s', List.concat ps = List.concat (rev acc') ++ s' /\
       (s' = e ++ slash :: r \/ exists p c, e ++ slash :: r = p ++ [c; slash] /\ c <> slash /\ s' = p ++ [c])).
    { intros acc'. destruct (IH e acc' NE (or_intror HE)) as (ps & E & P1 & P2). exists ps. split; auto.
      destruct r as [|b r].
      - rewrite (P1 eq_refl). simpl. rewrite concat_app. simpl. rewrite app_nil_r. exists e. split; auto. right.
        destruct (exists_last NE) as (p & c & Ep). exists p, c. rewrite Ep, <- app_assoc. split; [reflexivity|]. split; auto.
        intros ->. apply NI. rewrite Ep. apply in_or_app. right. now left.
      - destruct P2 as (s' & Q1 & Q2); [discriminate|]. rewrite HE in Q1. exists (e ++ slash :: s'). split.
        + rewrite Q1. simpl. rewrite concat_app. simpl. rewrite app_nil_r, <- app_assoc. reflexivity.
        + destruct Q2 as [->|(p & c & A & B & C)]; [now left|]. right. exists (e ++ slash :: p), c. rewrite A, C.
          rewrite <- !app_assoc. simpl. split; auto. }
    destruct HA as [HA|HA]; rewrite HA.
    + destruct (R (a :: acc)) as (ps & E & s' & Q1 & Q2). exists ps. split; auto.
      split; [intros Z; destruct e; [congruence|discriminate Z]|]. intros _. exists s'. split; auto.
    + destruct (R ([slash] :: a :: acc)) as (ps & E & s' & Q1 & Q2). exists ps. split; auto.
      split; [intros Z; destruct e; [congruence|discriminate Z]|]. intros _. exists s'. split; auto.
      rewrite Q1. simpl. rewrite !concat_app. simpl. rewrite ?app_nil_r, <- !app_assoc. reflexivity.
  - cbn [build_loop List.length Nat.eqb].
    assert (R : forall acc', exists ps, build_loop xs ([slash] :: acc') = Some ps /\
       exists s', List.concat ps = List.concat (rev acc') ++ s' /\
       (s' = slash :: r \/ exists p c, slash :: r = p ++ [c; slash] /\ c <> slash /\ s' = p ++ [c])).
    { intros acc'. destruct (IH [slash] acc') as (ps & E & P1 & P2); [discriminate|left; reflexivity|].
      exists ps. split; auto. destruct r as [|b r].
      - rewrite (P1 eq_refl). simpl. rewrite concat_app. simpl. exists [slash]. auto.
      - destruct P2 as (s' & Q1 & Q2); [discriminate|]. change (ends_slash [slash]) with (Some true) in Q1.
        exists (slash :: s'). split.
        + rewrite Q1. simpl. rewrite concat_app. simpl. rewrite <- app_assoc. reflexivity.
        + destruct Q2 as [->|(p & c & A & B & C)]; [now left|]. right. exists (slash :: p), c. rewrite A, C. split; auto. }
    destruct HA as [HA|HA]; rewrite HA.
    + destruct (R (a :: acc)) as (ps & E & s' & Q1 & Q2). exists ps. split; auto.
      split; [discriminate|]. intros _. exists s'. split; auto.
    + destruct (R ([slash] :: a :: acc)) as (ps & E & s' & Q1 & Q2). exists ps. split; auto.
      split; [discriminate|]. intros _. exists s'. split; auto.
      rewrite Q1. simpl. rewrite !concat_app. simpl. rewrite ?app_nil_r, <- !app_assoc. reflexivity.
Qed.

Lemma rebuild s : s <> [] -> exists xs r, path_list s = Some xs /\ apply_build_path xs = Some r /\
  (r = s \/ exists p c, s = p ++ [c; slash] /\ c <> slash /\ r = p ++ [c]).
Proof.
  intros NE. destruct (path_list_elements s) as (xs & E & EL). exists xs. rewrite E.
  inversion EL as [|e A B|e r ys A B EL'|r ys EL']; subst; [congruence| | |].
  - exists s. split; auto. unfold apply_build_path, build_path. simpl. rewrite app_nil_r. auto.
  - destruct (build_elems r ys EL' e [] A (or_intror (ends_slash_elem e A B))) as (ps & E2 & P1 & P2).
    unfold apply_build_path, build_path. rewrite E2. exists (List.concat ps). split; auto. split; auto.
    rewrite (ends_slash_elem e A B) in P2. simpl in P1, P2. rewrite app_nil_r in P1, P2. destruct r as [|b r].
    + right. destruct (exists_last A) as (p & c & Ep). exists p, c. rewrite P1 by auto. subst e.
      rewrite <- app_assoc. split; [reflexivity|]. split; auto. intros ->. apply B. apply in_or_app. right. now left.
    + destruct P2 as (s' & Q1 & Q2); [discriminate|]. rewrite Q1. destruct Q2 as [->|(p & c & Q2 & Q3 & ->)]; auto.
      right. exists (e ++ slash :: p), c. rewrite Q2, <- !app_assoc. auto.
  - destruct (build_elems r ys EL' [slash] []) as (ps & E2 & P1 & P2); [discriminate|left; reflexivity|].
    unfold apply_build_path, build_path. rewrite E2. exists (List.concat ps). split; auto. split; auto.
    change (ends_slash [slash]) with (Some true) in P2. simpl in P1, P2. destruct r as [|b r].
    + left. rewrite P1; auto.
    + destruct P2 as (s' & Q1 & Q2); [discriminate|]. rewrite Q1. destruct Q2 as [->|(p & c & Q2 & Q3 & ->)]; auto.
      right. exists (slash :: p), c. rewrite Q2. auto.
Qed.

Lemma trailing_unique p c p' c' : p ++ [c; slash] = p' ++ [c'; slash] -> p = p' /\ c = c'.
Proof.
  intros H. replace (p ++ [c; slash]) with ((p ++ [c]) ++ [slash]) in H by now rewrite <- app_assoc.
  replace (p' ++ [c'; slash]) with ((p' ++ [c']) ++ [slash]) in H by now rewrite <- app_assoc.
  apply app_inj_tail in H. destruct H as [H _]. now apply app_inj_tail in H.
Qed.

Lemma trailing_parse : forall s xs, elements s xs -> forall p c, s = p ++ [c; slash] -> c <> slash ->
  elements (p ++ [c]) xs.
Proof.
  induction 1 as [|e NE NI|e r xs NE NI EL IH|r xs EL IH]; intros p c Hs Hc.
  - destruct p; discriminate.
  - exfalso. apply NI. rewrite Hs. apply in_or_app. right. right. now left.
  - destruct r as [|b r].
    + assert (xs = []) by (inversion EL as [|e' A B Q|e' r ys A B C Q|]; auto; destruct e'; congruence || discriminate).
      subst xs.
      assert (X : e ++ [slash] = (p ++ [c]) ++ [slash]) by (rewrite <- app_assoc; exact Hs).
      apply app_inj_tail in X. destruct X as [<- _]. now apply el_last.
    + (* the last two characters lie in [r] or [r] is one slash *)
      destruct (exists_last (l := b :: r)) as (r1 & z & Er); [discriminate|].
      assert (X : (e ++ slash :: r1) ++ [z] = (p ++ [c]) ++ [slash]).
      { rewrite <- !app_assoc. simpl. rewrite <- Er. exact Hs. }
      apply app_inj_tail in X. destruct X as [X ->].
      destruct r1 as [|y r1'] using rev_ind.
      * replace (e ++ [slash]) with (e ++ [slash]) in X by auto. apply app_inj_tail in X. destruct X as [_ X]. congruence.
      * clear IHr1'. assert (X' : (e ++ slash :: r1') ++ [y] = p ++ [c]) by (rewrite <- X, <- app_assoc; reflexivity).
        apply app_inj_tail in X'. destruct X' as [<- ->].
        rewrite <- app_assoc. simpl. apply el_sep; auto. apply IH; auto. rewrite Er, <- app_assoc. reflexivity.
  - destruct p as [|a p]; simpl in Hs; inversion Hs; subst; [congruence|].
    simpl. apply el_slash. apply IH; auto.
Qed.

Lemma elements_fun : forall s xs, elements s xs -> forall ys, elements s ys -> xs = ys.
Proof.
  assert (S : forall e r e' r' : str, ~ In slash e -> ~ In slash e' -> e ++ slash :: r = e' ++ slash :: r' -> e = e' /\ r = r').
  { induction e as [|a e IH]; intros r [|b e'] r' A B H; simpl in H; inversion H; subst; auto.
    - destruct B. now left. - destruct A. now left.
    - destruct (IH r e' r') as [-> ->]; auto; intros Q; [apply A|apply B]; now right. }
  assert (N : forall e, ~ In slash (e ++ [slash]) -> False) by (intros e Q; apply Q; apply in_or_app; right; now left).
  assert (M : forall e r, ~ In slash (e ++ slash :: r) -> False) by (intros e r Q; apply Q; apply in_or_app; right; now left).
  induction 1 as [|e NE NI|e r xs NE NI EL IH|r xs EL IH]; intros ys H.
  - inversion H as [|e' A B Q|e' r' ys' A B C Q|]; subst; auto; [congruence|destruct e'; discriminate].
  - inversion H as [Q|e' A B Q|e' r' ys' A B C Q|r' ys' C Q]; subst; auto; [congruence|destruct (M _ _ NI)|destruct NI; now left].
  - inversion H as [Q|e' A B Q|e' r' ys' A B C Q|r' ys' C Q]; subst.
    + destruct e; discriminate.
    + destruct (M _ _ B).
    + destruct (S e' r' e r B NI Q) as [-> ->]. f_equal. auto.
    + destruct e as [|a e]; [congruence|]. inversion Q; subst. destruct NI. now left.
  - inversion H as [Q|e' A B Q|e' r' ys' A B C Q|r' ys' C Q]; subst.
    + destruct B. now left.
    + destruct e' as [|a e']; [congruence|]. inversion Q; subst. destruct B. now left.
    + f_equal. auto.
Qed.

(** ** C47 *)

(** path->list returns on every path and gives its elements. *)
Theorem C47_path_list_elements : forall s, exists xs, path_list s = Some xs /\ elements s xs.
Proof. exact path_list_elements. Qed.

Theorem C47_elements_unique : forall s xs ys, elements s xs -> elements s ys -> xs = ys.
Proof. intros s xs ys A B. eapply elements_fun; eauto. Qed.

(** build-path applied to the elements of a path, absolute or relative, gives the
    path back unless it ends with a separator. *)
Theorem C47_build_path_undoes_path_list : forall s, s <> [] -> ~ trailing_separator s ->
  exists xs, path_list s = Some xs /\ apply_build_path xs = Some s.
Proof.
  intros s NE NT. destruct (rebuild s NE) as (xs & r & A & B & [->|(p & c & C & D & E)]).
  - exists xs. auto.
  - destruct NT. exists p, c. auto.
Qed.

(** A trailing separator is dropped, nothing else. *)
Theorem C47_trailing_separator_dropped : forall p c, c <> slash ->
  exists xs, path_list (p ++ [c; slash]) = Some xs /\ apply_build_path xs = Some (p ++ [c]).
Proof.
  intros p c Hc. destruct (path_list_elements (p ++ [c; slash])) as (xs & A & EL). exists xs. split; auto.
  destruct (path_list_elements (p ++ [c])) as (ys & B & EL').
  assert (EL2 := trailing_parse _ _ EL p c eq_refl Hc).
  rewrite (elements_fun _ _ EL2 _ EL').
  destruct (rebuild (p ++ [c])) as (zs & r & C & D & R). { destruct p; discriminate. }
  rewrite B in C. inversion C; subst zs. rewrite D. destruct R as [->|(p' & c' & R & Rc & _)]; auto.
  exfalso. replace (p' ++ [c'; slash]) with ((p' ++ [c']) ++ [slash]) in R by now rewrite <- app_assoc.
  apply app_inj_tail in R. destruct R; congruence.
Qed.

(** split-path separates the last element; joining the two parts gives the path
    back. *)
Theorem C47_split_path : forall s, s <> [] -> ~ trailing_separator s ->
  exists d e, split_path s = Some (d, e) /\ e <> [] /\
    match d with
    | None => e = s
    | Some d => build_path d [e] = Some s
    end.
Proof.
  intros s NE NT. destruct (C47_build_path_undoes_path_list s NE NT) as (xs & A & B).
  unfold split_path. rewrite A. destruct (path_list_elements s) as (xs' & A' & EL). rewrite A in A'. inversion A'; subst xs'. clear A'.
  assert (NN : forall e, In e xs -> e <> []).
  { clear -EL. induction EL; simpl; try tauto.
    - intros e0 [<-|[]]; auto.
    - intros e0 [<-|I]; auto.
    - intros e0 [<-|I]; [discriminate|auto]. }
  destruct xs as [|x xs] using rev_ind; [discriminate B|]. clear IHxs. rewrite rev_app_distr. simpl.
  assert (Hx : x <> []). { apply NN. apply in_or_app. right. now left. }
  destruct (rev xs) as [|y ys] eqn:R.
  - exists None, x. split; auto. split; auto.
    assert (xs = []) by (rewrite <- (rev_involutive xs), R; reflexivity). subst xs.
    simpl in B. unfold build_path in B. simpl in B. rewrite app_nil_r in B. now inversion B.
  - assert (Xs : xs = rev ys ++ [y]) by (rewrite <- (rev_involutive xs), R; reflexivity).
    assert (BL : forall l acc, build_loop (l ++ [x]) acc = match build_loop l acc with
       | Some ps => match rev ps with
                    | [] => None
                    | a :: _ => match ends_slash a with
                                | Some true => Some (ps ++ [x])
                                | Some false => Some (ps ++ [[slash]; x])
                                | None => None
                                end
                    end
       | None => None end).
    { induction l as [|p l IH]; intros acc; cbn [app build_loop].
      - assert (L : List.length x =? 0 = false). { apply Nat.eqb_neq. destruct x; simpl; congruence. }
        rewrite L, rev_involutive. destruct acc as [|a acc]; auto. destruct (ends_slash a) as [[]|]; auto.
        simpl. now rewrite <- !app_assoc.
      - destruct (List.length p =? 0); auto. destruct acc as [|a acc]; auto. destruct (ends_slash a) as [[]|]; auto. }
    destruct xs as [|b xs']; [discriminate R|]. unfold apply_build_path in B. cbn [app] in B. unfold build_path in B.
    rewrite BL in B. destruct (build_loop xs' [b]) as [ps|] eqn:Eps; [|discriminate].
    assert (R2 : rev ys ++ [y] = b :: xs') by auto.
    simpl. rewrite R2. unfold apply_build_path, build_path. rewrite Eps.
    exists (Some (List.concat ps)), x. split; auto. split; auto. unfold build_path, build_loop. assert (L : List.length x =? 0 = false). { apply Nat.eqb_neq. destruct x; simpl; congruence. }
    rewrite L. destruct (rev ps) as [|a pr] eqn:RP; [discriminate|].
    assert (Ps : ps = rev pr ++ [a]) by (rewrite <- (rev_involutive ps), RP; reflexivity).
    destruct (ends_slash a) as [bb|] eqn:Ea; [|discriminate].
    assert (EC : ends_slash (List.concat ps) = Some bb).
    { rewrite Ps, concat_app. simpl. rewrite app_nil_r. unfold ends_slash in *.
      destruct a as [|a0 a1] using rev_ind; [discriminate|]. clear IHa1.
      rewrite app_length in Ea. simpl in Ea. rewrite Nat.add_sub in Ea. rewrite nth_error_app2, Nat.sub_diag in Ea by lia. simpl in Ea.
      rewrite app_assoc, app_length. simpl. rewrite Nat.add_sub, nth_error_app2, Nat.sub_diag by lia. exact Ea. }
    rewrite EC. destruct bb; inversion B as [B']; f_equal; simpl; rewrite ?concat_app; simpl; rewrite ?app_nil_r; reflexivity.
Qed.

(** A path built from an absolute (relative) base is absolute (relative). *)
Theorem C47_absolute : forall base subs r, base <> [] -> build_path base subs = Some r ->
  is_absolute r = is_absolute base.
Proof.
  intros base subs r NB H. unfold build_path in H. destruct (build_loop subs [base]) as [ps|] eqn:E; [|discriminate].
  inversion H; subst r. clear H.
  assert (G : forall subs acc ps, build_loop subs (acc ++ [base]) = Some ps -> exists qs, ps = base :: qs).
  { clear. induction subs as [|p subs IH]; intros acc ps H.
    - simpl in H. inversion H. rewrite rev_app_distr. simpl. eauto.
    - cbn [build_loop] in H. destruct (List.length p =? 0); [eauto|].
      destruct (acc ++ [base]) as [|a l] eqn:A; [discriminate|].
      destruct (ends_slash a) as [[]|]; [| |discriminate]; rewrite <- A in H.
      + exact (IH (p :: acc) ps H).
      + exact (IH (p :: [slash] :: acc) ps H). }
  destruct (G subs [] ps E) as (qs & ->). destruct base; [congruence|]. reflexivity.
Qed.

(** Empty components are ignored. *)
Theorem C47_empty_components_ignored : forall subs base,
  build_path base subs = build_path base (filter (fun p => negb (List.length p =? 0)) subs).
Proof.
  intros subs base. unfold build_path. generalize [base]. induction subs as [|p subs IH]; intros acc; auto.
  cbn [build_loop filter]. destruct (List.length p =? 0) eqn:L; cbn [negb]; auto.
  cbn [build_loop]. rewrite L. destruct acc as [|a acc]; auto. destruct (ends_slash a) as [[]|]; auto; rewrite IH; auto.
Qed.

(** The empty path has no elements, and splitting it or building from none
    raises. *)
Theorem C47_empty_path : path_list [] = Some [] /\ apply_build_path [] = None /\ split_path [] = None.
Proof. repeat split. Qed.

(** ** Cases *)
Local Definition L := list_ascii_of_string.
Example path_case1 : path_list (L "/usr//lib/x.so") = Some (map L ["/"; "usr"; "/"; "lib"; "x.so"])%string.
Proof. reflexivity. Qed.
Example path_case2 : option_map string_of_list_ascii (apply_build_path (map L ["a"; "b/"; ""; "c"])%string) = Some "a/b/c"%string.
Proof. reflexivity. Qed.
Example path_case3 : split_path (L "/usr/lib") = Some (Some (L "/usr"), L "lib").
Proof. reflexivity. Qed.
Example path_case_applies : L "/usr//lib/x.so" <> [] /\ ~ trailing_separator (L "/usr//lib/x.so").
Proof.
  split; [discriminate|]. intros (p & c & H & _). apply (f_equal (@rev _)) in H.
  rewrite rev_app_distr in H. vm_compute in H. discriminate.
Qed.

Print Assumptions C47_path_list_elements.
Print Assumptions C47_elements_unique.
Print Assumptions C47_build_path_undoes_path_list.
Print Assumptions C47_trailing_separator_dropped.
Print Assumptions C47_split_path.
Print Assumptions C47_absolute.
Print Assumptions C47_empty_components_ignored.
Print Assumptions C47_empty_path.
