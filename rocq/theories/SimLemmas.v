(** Lemmas for the simulation of Sim.v: data, environments, frames, closures. *)
From Coq Require Import ZArith NArith Bool Ascii String List Arith Lia.
From Verif Require Import Base Heap HeapM Ast FreeVars Code CodeProofs Compile CompRel CompProofs SlotProofs Sem Vm Sim.
Import ListNotations.
Local Open Scope list_scope.

(** ** Lists *)
Lemma set_nth_length {A} n (a : A) l : List.length (set_nth n a l) = List.length l.
Proof. revert n. induction l as [|x r IH]; intros [|n]; simpl; auto. Qed.
Lemma set_nth_eq {A} n (a : A) l : n < List.length l -> nth_error (set_nth n a l) n = Some a.
Proof. revert n. induction l as [|x r IH]; intros [|n] L; simpl in *; auto; try lia. apply IH. lia. Qed.
Lemma set_nth_ne {A} n k (a : A) l : k <> n -> nth_error (set_nth n a l) k = nth_error l k.
Proof. revert n k. induction l as [|x r IH]; intros [|n] [|k] N; simpl; auto; try congruence. Qed.
Lemma set_nth_map {A B} (f : A -> B) n a l : map f (set_nth n a l) = set_nth n (f a) (map f l).
Proof. revert n. induction l as [|x r IH]; intros [|n]; simpl; auto. rewrite IH. auto. Qed.
Lemma set_nth_same {A} n (a : A) l : nth_error l n = Some a -> set_nth n a l = l.
Proof. revert n. induction l as [|x r IH]; intros [|n] E; simpl in *; try discriminate; [congruence|]. rewrite IH; auto. Qed.
Lemma nth_map {A B} (f : A -> B) l n : nth_error (map f l) n = match nth_error l n with Some a => Some (f a) | None => None end.
Proof. revert n. induction l as [|x r IH]; intros [|n]; simpl; auto. Qed.
Lemma nth_some_lt {A} (l : list A) n a : nth_error l n = Some a -> n < List.length l.
Proof. intros H. apply nth_error_Some. congruence. Qed.
Lemma nth_lt_some {A} (l : list A) n : n < List.length l -> exists a, nth_error l n = Some a.
Proof. intros H. apply nth_error_Some in H. destruct (nth_error l n); [eauto|congruence]. Qed.
Lemma nth_snoc_eq {A} (l : list A) a : nth_error (l ++ [a]) (List.length l) = Some a.
Proof. rewrite nth_error_app2, Nat.sub_diag; auto. Qed.

(** ** Globals *)
Lemma glob_ref_set x v y g : glob_ref y (glob_set x v g) = if ident_eqb x y then Some v else glob_ref y g.
Proof.
  induction g as [|[z w] r IH]; simpl.
  - destruct (ident_eqb x y); reflexivity.
  - destruct (ident_eqb_spec z x) as [->|D]; simpl.
    + destruct (ident_eqb x y); reflexivity.
    + destruct (ident_eqb_spec z y) as [->|D2].
      * destruct (ident_eqb_spec x y); congruence.
      * apply IH.
Qed.

Lemma drel_of s d s' d' :
  heap_of s' = d_heap d' -> cells_of s' = map snd (d_cells d') -> grel (glob_of s') (d_glob d') ->
  procs_of s' = procs_of s -> d_clos d' = d_clos d -> grows d d' -> drel s d -> drel s' d'.
Proof.
  intros A B C D E G [R1 R2 R3 R4]. constructor; auto. rewrite D, E. eapply procs_grows; eauto.
Qed.

Lemma set_glob_rel s d x v : drel s d ->
  drel (set_glob x v s) (with_glob d (glob_set x v (d_glob d))) /\ grows d (with_glob d (glob_set x v (d_glob d))).
Proof.
  intros R. assert (G : grows d (with_glob d (glob_set x v (d_glob d)))).
  { constructor; simpl; auto. intros y N. rewrite glob_ref_set. destruct (ident_eqb x y); [discriminate|auto]. }
  split; auto. eapply drel_of; try exact G; try exact R; try reflexivity; try apply R.
  intros y. simpl. rewrite !glob_ref_set. destruct (ident_eqb x y); [reflexivity|]. apply R.
Qed.

Lemma tl_bind_rel ids : forall vs s d, List.length vs = List.length ids -> drel s d ->
  exists d', tl_bind_all d ids vs = Some d' /\ drel (set_globs ids vs s) d' /\ grows d d' /\ d_envs d' = d_envs d.
Proof.
  induction ids as [|x r IH]; intros [|v vr] s d L R; try discriminate; simpl.
  - exists d. split; [auto|]. split; auto. split; [apply grows_refl|auto].
  - destruct (set_glob_rel s d x v R) as [R1 G1]. injection L as L.
    destruct (IH vr _ _ L R1) as [d' [E [R2 [G2 E2]]]]. exists d'. split; auto. split; auto. split; [|exact E2].
    eapply grows_trans; eauto.
Qed.

(** A global that a closure mentions gets an entry. *)
Definition touch (x : ident) (d : data) : data :=
  match glob_ref x (d_glob d) with
  | None => with_glob d (glob_set x VUnbound (d_glob d))
  | Some _ => d
  end.
Lemma touch_rel s d x : drel s d ->
  drel s (touch x d) /\ grows d (touch x d) /\ d_envs (touch x d) = d_envs d /\ glob_ref x (d_glob (touch x d)) <> None /\
  d_clos (touch x d) = d_clos d.
Proof.
  intros R. unfold touch. destruct (glob_ref x (d_glob d)) eqn:E.
  - split; auto. split; [apply grows_refl|]. split; auto. split; auto. congruence.
  - assert (G : grows d (with_glob d (glob_set x VUnbound (d_glob d)))).
    { constructor; simpl; auto. intros y N. rewrite glob_ref_set. destruct (ident_eqb x y); [discriminate|auto]. }
    split; [|split; [exact G|split; [reflexivity|split; [|reflexivity]]]].
    + eapply drel_of; try exact G; try exact R; try reflexivity; try apply R.
      intros y. simpl. rewrite glob_ref_set. assert (H := dr_glob _ _ R y). destruct (ident_eqb_spec x y) as [->|D]; [|exact H].
      destruct (glob_ref y (glob_of s)); [congruence|auto].
    + simpl. rewrite glob_ref_set, ident_eqb_refl. discriminate.
Qed.

(** ** Cells *)
Lemma set_cell_rel s d l v x w : drel s d -> nth_error (d_cells d) l = Some (x, w) ->
  let d' := with_cells d (set_nth l (x, v) (d_cells d)) in drel (set_cell l v s) d' /\ grows d d'.
Proof.
  intros R N d'. assert (E : map fst (d_cells d') = map fst (d_cells d)).
  { simpl. rewrite set_nth_map. apply set_nth_same. rewrite nth_map, N. reflexivity. }
  assert (G : grows d d') by (constructor; auto; intros k y; rewrite E; auto).
  split; auto. eapply drel_of; try exact G; try exact R; try reflexivity; try apply R.
  simpl. rewrite set_nth_map, (dr_cells _ _ R). reflexivity.
Qed.

(** One more variable in the environment. *)
Lemma bind1_ok top sc r sl s d e x v :
  drel s d -> nth_error (d_envs d) e = Some sl -> List.length sc < List.length sl -> env_ok top sc r sl d ->
  exists d' sl',
    set_slot (with_cells d (d_cells d ++ [(x, v)])) e (List.length sc) (Some (CL (List.length (d_cells d)))) = Some d' /\
    nth_error (d_envs d') e = Some sl' /\ List.length sl' = List.length sl /\
    env_ok top (x :: sc) ((x, List.length (cells_of s)) :: r) sl' d' /\
    drel (add_cells [v] s) d' /\ dkeeps (List.length sc) e d d' /\ d_heap d' = d_heap d /\ d_clos d' = d_clos d /\
    List.length (d_envs d') = List.length (d_envs d).
Proof.
  intros R NE L [E1 E2]. unfold set_slot. simpl. rewrite NE. apply Nat.ltb_lt in L. rewrite L. apply Nat.ltb_lt in L.
  eexists _, _. split; [reflexivity|]. simpl.
  set (sl' := set_nth (List.length sc) (Some (CL (List.length (d_cells d)))) sl).
  set (d' := with_envs (with_cells d (d_cells d ++ [(x, v)])) (set_nth e sl' (d_envs d))).
  assert (LE := nth_some_lt _ _ _ NE).
  assert (G : grows d d').
  { constructor; simpl; auto.
    - intros l y. rewrite map_app. intros H. rewrite nth_error_app1; auto. apply nth_some_lt in H. auto.
    - rewrite set_nth_length. auto. }
  split; [apply set_nth_eq; auto|]. split; [apply set_nth_length|].
  assert (LC : List.length (cells_of s) = List.length (d_cells d)) by (rewrite (dr_cells _ _ R), map_length; auto).
  split; [|split; [|split; [|split; [reflexivity|split; [reflexivity|apply set_nth_length]]]]].
  - split.
    + intros y i. rewrite scope_ref_cons. unfold cref_ok. simpl lookup_env. destruct (ident_eqb_spec x y) as [->|D].
      * intros [= <-]. eexists. split; [apply set_nth_eq; auto|]. split; [congruence|].
        simpl. rewrite map_app, LC. rewrite <- (map_length fst (d_cells d)). apply nth_snoc_eq.
      * intros H. destruct (E1 y i H) as [cr [N C]]. exists cr.
        unfold sl'. rewrite set_nth_ne by (apply scope_ref_lt in H; lia). split; auto.
        apply (cref_grows _ _ _ _ _ G) in C. exact C.
    + intros T y. rewrite scope_ref_cons. simpl lookup_env. destruct (ident_eqb_spec x y); [split; discriminate|auto].
  - eapply drel_of; try exact G; try exact R; try reflexivity; try apply R.
    simpl. rewrite map_app, (dr_cells _ _ R). reflexivity.
  - constructor; auto.
    + intros j _ N. simpl. apply set_nth_ne. auto.
    + intros sl0 H. rewrite NE in H. injection H as <-. exists sl'. simpl. split; [apply set_nth_eq; auto|].
      split; [apply set_nth_length|]. intros i Li. unfold sl'. apply set_nth_ne. lia.
Qed.

Lemma add_cells_app a b s : add_cells b (add_cells a s) = add_cells (a ++ b) s.
Proof. unfold add_cells. simpl. rewrite app_assoc. reflexivity. Qed.

Lemma bind_all_ok xs : forall vs top sc r sl s d e,
  List.length vs = List.length xs -> drel s d -> nth_error (d_envs d) e = Some sl ->
  List.length sc + List.length xs <= List.length sl -> env_ok top sc r sl d ->
  exists d' sl',
    bind_all d e (List.length sc) xs vs = Some d' /\
    nth_error (d_envs d') e = Some sl' /\ List.length sl' = List.length sl /\
    env_ok top (rev xs ++ sc) (bind_env xs (List.length (cells_of s)) r) sl' d' /\
    drel (add_cells vs s) d' /\ dkeeps (List.length sc) e d d'.
Proof.
  induction xs as [|x xr IH]; intros [|v vr] top sc r sl s d e LV R NE L EO; try discriminate; simpl.
  - exists d, sl. split; auto. split; auto. split; auto. split; auto. split.
    + unfold add_cells. rewrite app_nil_r. destruct s; exact R.
    + apply dkeeps_same; auto. apply grows_refl.
  - simpl in L, LV. injection LV as LV.
    destruct (bind1_ok top sc r sl s d e x v R NE ltac:(lia) EO) as [d1 [sl1 [B [N1 [L1 [EO1 [R1 [K1 _]]]]]]]].
    rewrite B. destruct (IH vr top (x :: sc) _ sl1 _ d1 e LV R1 N1 ltac:(simpl; lia) EO1) as [d2 [sl2 [B2 [N2 [L2 [EO2 [R2 K2]]]]]]].
    exists d2, sl2. simpl in B2. split; auto. split; auto. split; [congruence|]. split; [|split].
    + rewrite <- app_assoc. simpl. simpl in EO2. rewrite app_length in EO2. simpl in EO2. rewrite Nat.add_1_r in EO2. exact EO2.
    + rewrite add_cells_app in R2. exact R2.
    + eapply dkeeps_trans; eauto. simpl. lia.
Qed.

(** ** Free variables *)
Lemma scope_ref_nth sc x i : scope_ref sc x = Some i -> nth_error (rev sc) i = Some x.
Proof.
  revert i. induction sc as [|y r IH]; intros i; [discriminate|]. rewrite scope_ref_cons. simpl.
  destruct (ident_eqb_spec y x) as [->|D].
  - intros [= <-]. rewrite <- rev_length. apply nth_snoc_eq.
  - intros H. apply IH in H. rewrite nth_error_app1; auto. eapply nth_some_lt; eauto.
Qed.
Lemma Forall2_nth_l {A B} (R : A -> B -> Prop) l l' n a : Forall2 R l l' -> nth_error l n = Some a -> exists b, nth_error l' n = Some b /\ R a b.
Proof. intros F. revert n. induction F; intros [|n] E; simpl in *; try discriminate; [injection E as ->; eauto|auto]. Qed.
Lemma Forall2_lgth {A B} (R : A -> B -> Prop) l l' : Forall2 R l l' -> List.length l = List.length l'.
Proof. induction 1; simpl; auto. Qed.

Lemma load_free_ok free : forall d e i sl,
  nth_error (d_envs d) e = Some sl -> i + List.length free <= List.length sl ->
  exists d' sl', load_free d e i free = Some d' /\ d' = with_envs d (set_nth e sl' (d_envs d)) /\
    List.length sl' = List.length sl /\ (forall k, k < i -> nth_error sl' k = nth_error sl k) /\
    (forall k o, nth_error free k = Some o -> nth_error sl' (i + k) = Some o).
Proof.
  induction free as [|c r IH]; intros d e i sl N L; simpl.
  - exists d, sl. rewrite set_nth_same by auto. split; auto. split; [destruct d; reflexivity|]. split; auto. split; auto.
    intros [|k]; discriminate.
  - simpl in L. unfold set_slot. rewrite N. destruct (Nat.ltb_spec i (List.length sl)); [|lia].
    assert (LE := nth_some_lt _ _ _ N).
    destruct (IH (with_envs d (set_nth e (set_nth i c sl) (d_envs d))) e (S i) (set_nth i c sl)) as [d' [sl' [E1 [E2 [E3 [E4 E5]]]]]].
    + simpl. apply set_nth_eq. auto.
    + rewrite set_nth_length. lia.
    + exists d', sl'. split; auto. split; [|split; [|split]].
      * rewrite E2. simpl. unfold with_envs. simpl. f_equal.
        clear - LE. revert e LE. induction (d_envs d) as [|x q IHq]; intros [|e] LE; simpl in *; auto; try lia. f_equal. apply IHq. lia.
      * rewrite E3. apply set_nth_length.
      * intros k Lk. rewrite E4 by lia. apply set_nth_ne. lia.
      * intros [|k] o H1; simpl in H1.
        -- injection H1 as ->. rewrite Nat.add_0_r. rewrite E4 by lia. apply set_nth_eq. auto.
        -- rewrite <- Nat.add_succ_comm. auto.
Qed.

(** The environment of a closure on entry. *)
Lemma load_env_ok fvs r free d sl :
  Forall2 (fun x o => exists cr, o = Some cr /\ cref_ok x r cr d) fvs free ->
  (forall k o, nth_error free k = Some o -> nth_error sl k = Some o) ->
  env_ok false (fvs_scope fvs) r sl d.
Proof.
  intros F N. split; [|discriminate]. intros x i H. apply scope_ref_nth in H. unfold fvs_scope in H. rewrite rev_involutive in H.
  destruct (Forall2_nth_l _ _ _ _ _ F H) as [o [E [cr [-> C]]]]. exists cr. split; auto.
Qed.

(** ** Frames *)
Lemma args_from_spec n : forall stk i vs, args_from stk i n = Some vs <->
  List.length vs = n /\ forall j v, nth_error vs j = Some v -> stk (i + j) = SVal v.
Proof.
  induction n as [|n IH]; intros stk i vs; simpl.
  - split.
    + intros [= <-]. split; auto. intros [|j]; discriminate.
    + intros [L _]. destruct vs; [auto|discriminate].
  - split.
    + destruct (stk i) as [|v|ra] eqn:E; try discriminate. destruct (args_from stk (S i) n) as [ws|] eqn:A; [|discriminate].
      intros [= <-]. apply IH in A. destruct A as [L H]. split; [simpl; auto|].
      intros [|j] w N; simpl in N; [injection N as <-; rewrite Nat.add_0_r; auto|]. rewrite <- Nat.add_succ_comm. auto.
    + intros [L H]. destruct vs as [|v ws]; [discriminate|]. injection L as L.
      assert (H0 := H 0 v eq_refl). rewrite Nat.add_0_r in H0. rewrite H0.
      assert (A : args_from stk (S i) n = Some ws).
      { apply IH. split; auto. intros j w N. rewrite Nat.add_succ_comm. apply H. exact N. }
      rewrite A. reflexivity.
Qed.
Lemma args_from_ext n stk stk' i : (forall j, j < n -> stk' (i + j) = stk (i + j)) -> args_from stk' i n = args_from stk i n.
Proof.
  revert i. induction n as [|n IH]; intros i H; simpl; auto.
  rewrite (IH (S i)) by (intros j L; rewrite !Nat.add_succ_comm; apply H; lia).
  assert (H0 := H 0 ltac:(lia)). rewrite Nat.add_0_r in H0. rewrite H0. reflexivity.
Qed.
Lemma push_all_spec vs : forall stk i j,
  push_all stk i vs j = if (i <=? j) then match nth_error vs (j - i) with Some v => SVal v | None => stk j end else stk j.
Proof.
  induction vs as [|v r IH]; intros stk i j; simpl.
  - destruct (i <=? j); auto. destruct (j - i); auto.
  - rewrite IH. unfold upd_stk. destruct (Nat.leb_spec (S i) j), (Nat.leb_spec i j); try lia.
    + replace (j - i) with (S (j - S i)) by lia. simpl. destruct (nth_error r (j - S i)); auto.
      destruct (Nat.eqb_spec j i); [lia|auto].
    + destruct (Nat.eqb_spec j i); [|lia]. subst. rewrite Nat.sub_diag. reflexivity.
    + destruct (Nat.eqb_spec j i); [lia|auto].
Qed.
Lemma push_all_args vs stk i : args_from (push_all stk i vs) i (List.length vs) = Some vs.
Proof.
  apply args_from_spec. split; auto. intros j v N. rewrite push_all_spec. destruct (Nat.leb_spec i (i + j)); [|lia].
  replace (i + j - i) with j by lia. rewrite N. reflexivity.
Qed.
Lemma push_all_low vs stk i j : j < i -> push_all stk i vs j = stk j.
Proof. intros L. rewrite push_all_spec. destruct (Nat.leb_spec i j); [lia|auto]. Qed.
Lemma push_all_app a : forall b stk i, push_all (push_all stk i a) (i + List.length a) b = push_all stk i (a ++ b).
Proof.
  induction a as [|x r IH]; intros b stk i; simpl; [rewrite Nat.add_0_r; auto|].
  rewrite <- Nat.add_succ_comm. apply IH.
Qed.

(** ** Lists in the heap *)
Inductive chain (h : heap) : val -> nat -> val -> Prop :=
| ChEnd v : pair_at h v = None -> chain h v 0 v
| ChCons v a d n e : pair_at h v = Some (a, d) -> chain h d n e -> chain h v (S n) e.
Lemma chain_fun h v n e : chain h v n e -> forall n' e', chain h v n' e' -> n = n'.
Proof.
  induction 1 as [v E|v a d n e E C IH]; intros n' e' C'; inversion C' as [? E'|? a' d' m ? E' C2]; subst; auto; try congruence.
  f_equal. rewrite E in E'. injection E' as <- <-. eauto.
Qed.
Lemma chain_cells h v n e : chain h v n e ->
  exists ls, List.length ls = n /\ NoDup ls /\ (forall l, In l ls -> l < List.length h) /\
             forall l, In l ls -> exists k e', chain h (VPtr l) k e' /\ k <= n.
Proof.
  induction 1 as [v E|v a d n e E C IH].
  - exists []. repeat split; try constructor; intros l [].
  - destruct IH as [ls [L [ND [B K]]]]. destruct (pair_at_inv _ _ _ _ E) as [l [-> N]].
    exists (l :: ls). split; [simpl; auto|]. split; [constructor; auto|split].
    + intros I. destruct (K _ I) as [k [e' [C' Lk]]]. assert (C2 : chain h (VPtr l) (S n) e) by (econstructor; eauto).
      assert (X := chain_fun _ _ _ _ C2 _ _ C'). lia.
    + intros j [<-|I]; auto. eapply nth_some_lt; eauto.
    + intros j [<-|I].
      * exists (S n), e. split; [econstructor; eauto|lia].
      * destruct (K _ I) as [k [e' [C' Lk]]]. exists k, e'. split; auto.
Qed.
Lemma chain_bound h v n e : chain h v n e -> n <= List.length h.
Proof.
  intros C. destruct (chain_cells _ _ _ _ C) as [ls [L [ND [B _]]]]. subst n.
  rewrite <- (seq_length (List.length h) 0). apply NoDup_incl_length; auto. intros l I. apply in_seq. specialize (B _ I). lia.
Qed.

Lemma read_list_list h v xs : list_at h v xs -> read_list (List.length h) h v = Some (Some xs).
Proof.
  intros L. assert (C : chain h v (List.length xs) VNull).
  { induction L; simpl; [constructor; reflexivity|]. econstructor; eauto. apply pair_at_cons; eauto. }
  apply chain_bound in C. revert C. generalize (List.length h) as fuel.
  induction L as [|l a d xs N L IH]; intros fuel LE; [destruct fuel; reflexivity|].
  simpl in LE. destruct fuel as [|fuel]; [lia|]. cbn [read_list]. rewrite (pair_at_cons _ _ _ _ N).
  rewrite IH by lia. reflexivity.
Qed.
Lemma read_list_improper h v : improper h v -> read_list (List.length h) h v = Some None.
Proof.
  intros I. assert (C : exists n e, chain h v n e).
  { induction I as [v E N|v a d E I [n [e C]]]; [exists 0, v; constructor; auto|]. exists (S n), e. econstructor; eauto. }
  destruct C as [n [e C]]. assert (LE := chain_bound _ _ _ _ C). revert n e C LE. generalize (List.length h) as fuel. revert I.
  assert (G : forall fuel, improper h v -> forall n e, chain h v n e -> n <= fuel -> read_list fuel h v = Some None).
  { intros fuel I. revert fuel. induction I as [v E N|v a d E I IH]; intros fuel n e C LE.
    - destruct v, fuel; cbn [read_list]; try rewrite E; try reflexivity; congruence.
    - inversion C as [? E'|? a' d' m ? E' C2]; subst; [congruence|]. rewrite E in E'. injection E' as <- <-.
      destruct fuel as [|fuel]; [lia|]. destruct (pair_at_inv _ _ _ _ E) as [l [-> _]]. cbn [read_list]. rewrite E.
      rewrite (IH fuel m e) by (auto; lia). reflexivity. }
  intros I fuel n e C LE. eapply G; eauto.
Qed.

(** ** Closures *)
Lemma closed_sub (top : bool) sc e e' : closed top sc e -> incl (free_vars e') (free_vars e) -> closed top sc e'.
Proof. intros C I T x H. apply C; auto. Qed.

Lemma wf_core e : forall inp clean, wf inp clean e = true -> core e = true.
Proof.
  assert (FB : forall (es : list expr) i c, Forall (fun e => forall inp clean, wf inp clean e = true -> core e = true) es ->
               forallb (wf i c) es = true -> forallb core es = true).
  { induction es as [|x r IH]; simpl; auto. intros i c F W. inversion F; subst. apply andb_true_iff in W. destruct W.
    apply andb_true_iff. eauto. }
  induction e using expr_ind'; intros inp clean W; simpl in *; auto; try discriminate;
    repeat match goal with H : _ && _ = true |- _ => apply andb_true_iff in H; destruct H end;
    repeat (apply andb_true_iff; split); eauto.
  revert H W. induction cls as [|[fm b] r IH]; simpl; auto. intros F W. inversion F; subst. apply andb_true_iff in W. destruct W.
  apply andb_true_iff. split; eauto.
Qed.

Lemma placed_of T P P' reloc ar c :
  assembled P -> resolve_refs T P = Some (P', reloc) -> write_code P' reloc ar = Some c -> placed c T P.
Proof.
  intros [ND [B EN]] R W. destruct (written_at _ _ _ _ _ _ R W ND B EN) as [_ [_ F]]. constructor; auto.
Qed.
Lemma placed_written its ar c : assembled its -> written its ar = Some c -> placed c [] its.
Proof.
  intros A. unfold written. destruct (resolve_refs [] its) as [[its' reloc]|] eqn:R; [|discriminate]. intros W.
  eapply placed_of; eauto.
Qed.

(** Variables of a body: parameters or free variables of the procedure. *)
Lemma body_closed e cls bounds fm body b x :
  proc_of e = Some (cls, bounds) -> In (fm, body) cls -> In b body -> In x (free_vars b) ->
  param x fm \/ In x (free_vars e).
Proof.
  intros PO I J F. destruct (in_dec ident_dec x (formals_ids fm)) as [P|N]; [left; apply formals_ids_param; auto|right].
  assert (C : In x (clause_fvs (fm, body))).
  { unfold clause_fvs. simpl. apply remove_fvs_In. split; auto. apply fv_seq_In. right. eauto. }
  destruct e; try discriminate; simpl in PO; injection PO as <- <-.
  - destruct I as [[= -> ->]|[]]. rewrite fv_lam. auto.
  - rewrite fv_case. apply fv_clauses_In. right. eauto.
Qed.

Lemma bind_args_scope xs : forall k sc its sc', bind_args k xs sc = (its, sc') -> sc' = rev xs ++ sc.
Proof.
  induction xs as [|x r IH]; intros k sc its sc' E; simpl in E; [injection E as <- <-; auto|].
  destruct (bind_args (S k) r (x :: sc)) as [i s] eqn:B. injection E as <- <-. apply IH in B. rewrite B.
  simpl. rewrite <- app_assoc. reflexivity.
Qed.
Lemma bind_formals_scope fm sc its sc' : bind_formals fm sc = (its, sc') ->
  sc' = match rest fm with None => [] | Some x => [x] end ++ rev (req fm) ++ sc.
Proof.
  unfold bind_formals. destruct (bind_args 0 (req fm) sc) as [i s] eqn:B. apply bind_args_scope in B.
  destruct (rest fm); intros [= <- <-]; simpl; congruence.
Qed.
