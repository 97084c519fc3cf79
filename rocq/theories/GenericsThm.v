(** C61: generic interfaces. *)
From Coq Require Import NArith Bool Ascii String List Arith Lia.
From Verif Require Import Base Ast Code Compile CompThm Generics.
Import ListNotations.
Local Open Scope list_scope.
Local Open Scope nat_scope.

(** * Specification *)
Definition symbol (o : obj) : Prop := (exists n, o = OSym n) \/ (exists n i, o = OGensym n i).
(** [formals f k rest]: the formals name [k] parameters, and a rest parameter if [rest] *)
Inductive formals : obj -> nat -> bool -> Prop :=
| FNone : formals ONull 0 false
| FRest o : symbol o -> formals o 0 true
| FOne a d k b : formals d k b -> formals (OPair a d) (S k) b.
(** the numbers of arguments that formals accept *)
Definition takes_count (f : obj) (n : nat) : Prop := exists k b, formals f k b /\ (if b : bool then k <= n else n = k).
(** the arity as procedure-arity shows it: [k] or [(k . #f)] *)
Definition shown (k : nat) (b : bool) : arity := if b then APair k AFalse else AFix k.
(** [suits g ps]: one procedure for each method, with the arity of its formals *)
Definition suits (g : generic) (ps : list proc) : Prop :=
  Forall2 (fun m p => exists k b, formals (snd m) k b /\ parity p = shown k b) (gmethods g) ps.
(** a call that gives the interface [g] with procedures [ps] to the type [r] *)
Definition gives (c : call) (r : nat) (g : generic) (ps : list proc) : Prop :=
  c = Add (GRtd r) (GGeneric g) (GList (map GProc ps)) /\ suits g ps.
(** [implements cs r g ps]: among the calls [cs], in order, the last one that gave [g]
    to [r] gave the procedures [ps] *)
Definition implements (cs : list call) (r : nat) (g : generic) (ps : list proc) : Prop :=
  exists before c after, cs = before ++ c :: after /\ gives c r g ps /\ forall c' ps', In c' after -> ~ gives c' r g ps'.
(** the method [m] of [g] is the [i]-th: the first of that name *)
Definition method_at (g : generic) (m : obj) (i : nat) : Prop :=
  (exists f, nth_error (gmethods g) i = Some (m, f)) /\ forall j f, j < i -> nth_error (gmethods g) j <> Some (m, f).
(** Interfaces with the same identity are the same object. *)
Definition known (cs : list call) (g : generic) : Prop :=
  forall c g', In c cs -> c_generic c = GGeneric g' -> gid g' = gid g -> g' = g.

(** * Lemmas *)
Lemma symbolp_spec o : symbolp o = true <-> symbol o.
Proof.
  unfold symbol. destruct o; simpl; split; intros H; try discriminate; eauto; destruct H as [[x H]|[x [y H]]]; discriminate.
Qed.
Lemma same_symbol_spec a b : symbol a -> (same_symbol a b = true <-> a = b).
Proof.
  intros [[n ->]|[n [i ->]]]; destruct b; simpl; split; intros H; try discriminate.
  - destruct (bytes_dec n name); congruence.
  - injection H as <-. destruct (bytes_dec n n); congruence.
  - destruct (bytes_dec n name); [|discriminate]. apply N.eqb_eq in H. congruence.
  - injection H as <- <-. destruct (bytes_dec n n); [|congruence]. apply N.eqb_refl.
Qed.
Lemma expected_spec f : forall i a, expected_arity f i = Some a <-> exists k b, formals f k b /\ a = shown (i + k) b.
Proof.
  assert (SY : forall o i a, symbol o -> (Some (APair i AFalse) = Some a <-> exists k b, formals o k b /\ a = shown (i + k) b)).
  { intros o i a SO. split.
    - intros H. injection H as <-. exists 0, true. split; [constructor; auto|]. simpl. f_equal. lia.
    - intros [k [b [F ->]]]. inversion F; subst; [destruct SO as [[? SO]|[? [? SO]]]; discriminate| |destruct SO as [[? SO]|[? [? SO]]]; discriminate].
      simpl. do 2 f_equal. lia. }
  induction f; intros i a; cbn [expected_arity];
    try (split; [discriminate|intros [k [b [F _]]]; inversion F as [|o SO|]; subst; destruct SO as [[? SO]|[? [? SO]]]; discriminate]).
  - split.
    + intros H. injection H as <-. exists 0, false. split; [constructor|]. simpl. f_equal. lia.
    + intros [k [b [F ->]]]. inversion F as [|o SO|]; subst; [simpl; do 2 f_equal; lia|destruct SO as [[? SO]|[? [? SO]]]; discriminate].
  - apply SY. left; eauto.
  - apply SY. right; eauto.
  - rewrite IHf2. split.
    + intros [k [b [F ->]]]. exists (S k), b. split; [constructor; auto|]. f_equal. lia.
    + intros [k [b [F ->]]]. inversion F as [|o SO|a0 d k0 b0 F0]; subst; [destruct SO as [[? SO]|[? [? SO]]]; discriminate|].
      exists k0, b. split; auto. f_equal. lia.
Qed.
Lemma check_spec ms : forall ps, List.length ms = List.length ps ->
  (check_arities ms ps = true <-> Forall2 (fun m p => exists k b, formals (snd m) k b /\ parity p = shown k b) ms ps).
Proof.
  induction ms as [|m ms IH]; intros [|p ps] L; try discriminate.
  - split; auto.
  - cbn [check_arities]. injection L as L. split.
    + intros H. destruct (expected_arity (snd m) 0) as [a|] eqn:E; [|discriminate]. destruct (arity_dec (parity p) a) as [A|]; [|discriminate].
      constructor; [|apply IH; auto]. apply expected_spec in E as [k [b [F ->]]]. exists k, b. split; auto.
    + intros H. inversion H as [|? ? ? ? [k [b [F A]]] R]; subst.
      assert (E : expected_arity (snd m) 0 = Some (shown k b)) by (apply expected_spec; exists k, b; auto).
      rewrite E. destruct (arity_dec (parity p) (shown k b)); [|contradiction]. apply IH; auto.
Qed.
Lemma procedures_spec l ps : procedures l = Some ps <-> l = map GProc ps.
Proof.
  revert ps. induction l as [|v l IH]; intros ps; simpl.
  - split; [intros H; injection H as <-; auto|destruct ps; [auto|discriminate]].
  - destruct v; try (split; [discriminate|destruct ps; discriminate]). destruct (procedures l) as [q|]; simpl.
    + split.
      * intros H. injection H as <-. simpl. f_equal. apply IH. auto.
      * destruct ps as [|p' ps]; [discriminate|]. simpl. intros H. injection H as <- H. apply IH in H. congruence.
    + split; [discriminate|]. destruct ps as [|p' ps]; [discriminate|]. simpl. intros H. injection H as <- H. apply IH in H. discriminate.
Qed.
Lemma F2_length {A B} (P : A -> B -> Prop) l m : Forall2 P l m -> List.length l = List.length m.
Proof. induction 1; simpl; auto. Qed.
Lemma add_spec t c r g ps : gives c r g ps ->
  add_generic t (c_rtd c) (c_generic c) (c_impls c) = GOk (store t r (match t r with Some es => (g, ps) :: es | None => [(g, ps)] end)).
Proof.
  intros [-> SU]. unfold add_generic. cbn [c_rtd c_generic c_impls]. assert (E : procedures (map GProc ps) = Some ps) by (apply procedures_spec; auto). rewrite E.
  assert (L := F2_length _ _ _ SU). unfold method_names. rewrite map_length, L, Nat.eqb_refl.
  assert (C : check_arities (gmethods g) ps = true) by (apply check_spec; auto). rewrite C. auto.
Qed.
Lemma add_inv t c t' : add_generic t (c_rtd c) (c_generic c) (c_impls c) = GOk t' -> exists r g ps, gives c r g ps.
Proof.
  destruct c as [rtd gen impls]. unfold add_generic. cbn [c_rtd c_generic c_impls].
  destruct gen as [|g| |]; try discriminate. destruct rtd as [r| | |]; try discriminate. destruct impls as [l|]; try discriminate.
  destruct (procedures l) as [ps|] eqn:E; [|discriminate]. apply procedures_spec in E as ->.
  destruct (List.length (method_names g) =? List.length ps) eqn:L; [|discriminate]. apply Nat.eqb_eq in L. unfold method_names in L. rewrite map_length in L.
  destruct (check_arities (gmethods g) ps) eqn:C; [|discriminate]. intros _. exists r, g, ps. split; auto. apply check_spec; auto.
Qed.
Lemma gives_fun c r g ps r' g' ps' : gives c r g ps -> gives c r' g' ps' -> r = r' /\ g = g' /\ ps = ps'.
Proof.
  intros [A _] [B _]. rewrite A in B. injection B as <- <- E. repeat split; auto. clear A. revert ps' E.
  induction ps as [|p ps IH]; intros [|p' ps'] E; try discriminate; auto. injection E as -> E. f_equal. auto.
Qed.
Lemma run_snoc cs c : run (cs ++ [c]) = step (run cs) c.
Proof. unfold run. rewrite fold_left_app. auto. Qed.

Definition entries (t : table) (r : nat) : list entry := match t r with Some es => es | None => [] end.
Lemma implements_snoc cs c r g ps : implements (cs ++ [c]) r g ps <->
  gives c r g ps \/ (implements cs r g ps /\ forall ps', ~ gives c r g ps').
Proof.
  split.
  - intros [b [c0 [a [E [G N]]]]]. destruct (exists_last (l := c0 :: a)) as [l [x X]]; [discriminate|].
    rewrite X, app_assoc in E. apply app_inj_tail in E as [E1 E2]. subst x. destruct a as [|a0 a].
    + destruct l as [|y l]; [|destruct l; discriminate]. injection X as ->. left. auto.
    + right. destruct l as [|y l]; [discriminate|]. injection X as <- X. split.
      * exists b, c0, l. split; auto. split; auto. intros c' ps' I. apply N. rewrite X. apply in_or_app. auto.
      * intros ps'. apply N. rewrite X. apply in_or_app. simpl. auto.
  - intros [G|[[b [c0 [a [-> [G N]]]]] NC]].
    + exists cs, c, []. split; [reflexivity|]. split; [exact G|]. intros c' ps' [].  
    + exists b, c0, (a ++ [c]). split; [rewrite <- app_assoc; auto|]. split; auto. intros c' ps' I. apply in_app_or in I as [I|[<-|[]]]; auto.
Qed.
Lemma run_entries cs r g : known cs g ->
  forall ps, assoc g (entries (run cs) r) = Some (g, ps) <-> implements cs r g ps.
Proof.
  induction cs as [|c cs IH] using rev_ind; intros K ps.
  - simpl. split; [discriminate|]. intros [b [c [a [E _]]]]. destruct b; discriminate.
  - assert (K' : known cs g) by (intros c' g' I; apply (K c' g'); apply in_or_app; auto). rewrite run_snoc, implements_snoc. unfold step.
    destruct (add_generic (run cs) (c_rtd c) (c_generic c) (c_impls c)) as [t'|e] eqn:E.
    + destruct (add_inv _ _ _ E) as [r1 [g1 [ps1 G1]]]. assert (E1 := add_spec (run cs) _ _ _ _ G1). rewrite E in E1. injection E1 as ->.
      unfold entries, store. destruct (r =? r1) eqn:R.
      * apply Nat.eqb_eq in R as <-. match goal with |- context [assoc g ?X] => replace X with (cons (A := entry) (g1, ps1) (entries (run cs) r)) by (unfold entries; destruct (run cs r); auto) end. cbn [assoc fst].
        destruct (gid g =? gid g1) eqn:I.
        -- apply Nat.eqb_eq in I. assert (g1 = g).
           { apply (K c); [apply in_or_app; simpl; auto| |auto]. destruct G1 as [-> _]. auto. } subst g1. split.
           ++ intros H. injection H as <-. auto.
           ++ intros [G|[_ N]]; [|exfalso; apply (N _ G1)]. destruct (gives_fun _ _ _ _ _ _ _ G G1) as [_ [_ ->]]. auto.
        -- rewrite (IH K'). split.
           ++ intros H. right. split; auto. intros ps' G. destruct (gives_fun _ _ _ _ _ _ _ G G1) as [_ [-> _]]. rewrite Nat.eqb_refl in I. discriminate.
           ++ intros [G|[H _]]; auto. destruct (gives_fun _ _ _ _ _ _ _ G G1) as [_ [-> _]]. rewrite Nat.eqb_refl in I. discriminate.
      * change (match run cs r with Some es => es | None => [] end) with (entries (run cs) r). rewrite (IH K'). split.
        -- intros H. right. split; auto. intros ps' G. destruct (gives_fun _ _ _ _ _ _ _ G G1) as [-> _]. rewrite Nat.eqb_refl in R. discriminate.
        -- intros [G|[H _]]; auto. destruct (gives_fun _ _ _ _ _ _ _ G G1) as [-> _]. rewrite Nat.eqb_refl in R. discriminate.
    + rewrite (IH K'). split.
      * intros H. right. split; auto. intros ps' G. assert (E1 := add_spec (run cs) _ _ _ _ G). rewrite E in E1. discriminate.
      * intros [G|[H _]]; auto. assert (E1 := add_spec (run cs) _ _ _ _ G). rewrite E in E1. discriminate.
Qed.
Lemma run_known cs r g e : known cs g -> assoc g (entries (run cs) r) = Some e -> fst e = g.
Proof.
  induction cs as [|c cs IH] using rev_ind; intros K.
  - simpl. discriminate.
  - assert (K' : known cs g) by (intros c' g' I; apply (K c' g'); apply in_or_app; auto). rewrite run_snoc. unfold step.
    destruct (add_generic (run cs) (c_rtd c) (c_generic c) (c_impls c)) as [t'|e'] eqn:E; auto.
    destruct (add_inv _ _ _ E) as [r1 [g1 [ps1 G1]]]. assert (E1 := add_spec (run cs) _ _ _ _ G1). rewrite E in E1. injection E1 as ->.
    unfold entries, store. destruct (r =? r1) eqn:R; auto. apply Nat.eqb_eq in R as <-.
    match goal with |- context [assoc g ?X] => replace X with (cons (A := entry) (g1, ps1) (entries (run cs) r)) by (unfold entries; destruct (run cs r); auto) end. cbn [assoc fst]. destruct (gid g =? gid g1) eqn:I; auto.
    apply Nat.eqb_eq in I. intros H. injection H as <-. apply (K c); [apply in_or_app; simpl; auto| |auto]. destruct G1 as [-> _]. auto.
Qed.
Lemma index_spec k l : symbol k -> forall i j, index_of k l i = Some j <->
  exists n, j = i + n /\ nth_error l n = Some k /\ forall m, m < n -> nth_error l m <> Some k.
Proof.
  intros SK. induction l as [|x l IH]; intros i j; cbn [index_of].
  - split; [discriminate|]. intros [n [_ [H _]]]. destruct n; discriminate.
  - destruct (same_symbol k x) eqn:E.
    + apply same_symbol_spec in E; auto. subst x. split.
      * intros H. injection H as <-. exists 0. split; [lia|]. split; auto. lia.
      * intros [[|n] [-> [H N]]]; [f_equal; lia|]. exfalso. apply (N 0); [lia|auto].
    + assert (NE : k <> x) by (intros ->; assert (T : same_symbol x x = true) by (apply same_symbol_spec; auto); congruence).
      rewrite IH. split.
      * intros [n [-> [H N]]]. exists (S n). split; [lia|]. split; auto. intros [|m] L; simpl; [congruence|]. apply N. lia.
      * intros [[|n] [-> [H N]]]; [simpl in H; congruence|]. exists n. split; [lia|]. split; auto. intros m L. apply (N (S m)). lia.
Qed.
Lemma method_index g m i : symbol m -> (index_of m (method_names g) 0 = Some i <-> method_at g m i).
Proof.
  intros SM. rewrite index_spec; auto. unfold method_names, method_at. split.
  - intros [n [-> [H N]]]. simpl. rewrite nth_error_map in H. destruct (nth_error (gmethods g) n) as [[m' f]|] eqn:E; [|discriminate]. injection H as ->. split; eauto.
    intros j f' L X. apply (N j L). rewrite nth_error_map, X. auto.
  - intros [[f E] N]. exists i. split; auto. split; [rewrite nth_error_map, E; auto|]. intros j L X. rewrite nth_error_map in X.
    destruct (nth_error (gmethods g) j) as [[m' f']|] eqn:EJ; [|discriminate]. injection X as ->. apply (N j f' L). auto.
Qed.
Lemma F2_nth {A B} (P : A -> B -> Prop) l m i a : Forall2 P l m -> nth_error l i = Some a -> exists b, nth_error m i = Some b /\ P a b.
Proof.
  intros F. revert i. induction F as [|x y l m X F IH]; intros [|i] H; try discriminate.
  - injection H as <-. exists y. auto.
  - apply IH; auto.
Qed.

(** * Theorems *)

(** A call of record-type-add-generic! is accepted exactly when it gives a record type
    an interface with one procedure for each method, of the arity of its formals. *)
Theorem C61_accepted t rtd g impls :
  (exists t', add_generic t rtd g impls = GOk t') <-> (exists r g' ps, gives (Add rtd g impls) r g' ps).
Proof.
  split.
  - intros [t' H]. apply (add_inv t (Add rtd g impls) t'). exact H.
  - intros [r [g' [ps G]]]. eexists. exact (add_spec t _ _ _ _ G).
Qed.

(** After any calls, the accessor of a method, applied to a record type, returns the
    procedure given for that method by the last accepted call for this type and this
    interface; and in every other case there is an error. *)
Theorem C61_method cs g m r p : known cs g -> symbol m ->
  (exists a, generics_accessor (GGeneric g) (GData m) = GOk a /\ accessor_apply (run cs) a (GRtd r) = GOk (Some p))
  <-> exists ps i, implements cs r g ps /\ method_at g m i /\ nth_error ps i = Some p.
Proof.
  intros K SM. unfold generics_accessor. assert (SP : symbolp m = true) by (apply symbolp_spec; auto). rewrite SP. split.
  - intros [a [A B]]. destruct (index_of m (method_names g) 0) as [i|] eqn:I; [|discriminate]. injection A as <-.
    unfold accessor_apply in B. cbn [fst snd] in B. change (match run cs r with Some es => es | None => [] end) with (entries (run cs) r) in B.
    destruct (assoc g (entries (run cs) r)) as [[g' ps]|] eqn:E; [|discriminate]. assert (X := run_known _ _ _ _ K E). simpl in X. subst g'.
    exists ps, i. split; [apply run_entries; auto|]. split; [apply method_index; auto|]. cbn [snd] in B. congruence.
  - intros [ps [i [IM [MA N]]]]. apply method_index in MA; auto. rewrite MA. eexists. split; [reflexivity|]. unfold accessor_apply. cbn [fst snd].
    change (match run cs r with Some es => es | None => [] end) with (entries (run cs) r). apply run_entries in IM; auto. rewrite IM. cbn [snd]. congruence.
Qed.
(** The accessor never leaves the list of procedures. *)
Theorem C61_in_bounds cs g m a r o : known cs g -> generics_accessor (GGeneric g) (GData m) = GOk a ->
  accessor_apply (run cs) a (GRtd r) = GOk o -> exists p, o = Some p.
Proof.
  intros K A B. unfold generics_accessor in A. destruct (symbolp m) eqn:SM; [|discriminate]. apply symbolp_spec in SM.
  destruct (index_of m (method_names g) 0) as [i|] eqn:I; [|discriminate]. injection A as <-. apply method_index in I; auto.
  unfold accessor_apply in B. cbn [fst snd] in B. change (match run cs r with Some es => es | None => [] end) with (entries (run cs) r) in B.
  destruct (assoc g (entries (run cs) r)) as [[g' ps]|] eqn:E; [|discriminate]. assert (X := run_known _ _ _ _ K E). simpl in X. subst g'.
  apply run_entries in E as [b [c [a [_ [[_ SU] _]]]]]; auto. destruct I as [[f N] _]. destruct (F2_nth _ _ _ _ _ SU N) as [p [P _]].
  exists p. cbn [snd] in B. congruence.
Qed.
(** A type implements an interface, as gen:NAME? sees it, exactly when a call gave it. *)
Theorem C61_instance cs g r : known cs g ->
  (exists e, generic_instance (run cs) (GGeneric g) (GRtd r) = GOk (Some e)) <-> exists ps, implements cs r g ps.
Proof.
  intros K. unfold generic_instance. split.
  - intros [e H]. injection H as H. assert (E : assoc g (entries (run cs) r) = Some e) by (unfold entries; destruct (run cs r); [auto|discriminate]).
    assert (X := run_known _ _ _ _ K E). destruct e as [g' ps]. simpl in X. subst g'. exists ps. apply run_entries; auto.
  - intros [ps IM]. apply run_entries in IM; auto. exists (g, ps). f_equal. unfold entries in IM. destruct (run cs r); [auto|discriminate].
Qed.
Theorem C61_instance_other t g v : (forall r, v <> GRtd r) -> generic_instance t (GGeneric g) v = GOk None.
Proof. intros H. destruct v; auto. exfalso. apply (H r). auto. Qed.
(** The method that an accessor returns accepts exactly the numbers of arguments that
    the formals in the interface allow. *)
Theorem C61_method_arity cs g m r a p : known cs g ->
  generics_accessor (GGeneric g) (GData m) = GOk a -> accessor_apply (run cs) a (GRtd r) = GOk (Some p) ->
  exists i f, method_at g m i /\ nth_error (gmethods g) i = Some (m, f) /\ forall n, includes (parity p) n <-> takes_count f n.
Proof.
  intros K A B. assert (SM : symbol m).
  { unfold generics_accessor in A. destruct (symbolp m) eqn:SM; [|discriminate]. apply symbolp_spec; auto. }
  destruct (proj1 (C61_method cs g m r p K SM) (ex_intro _ a (conj A B))) as [ps [i [IM [MA N]]]].
  destruct (proj1 MA) as [f EF]. exists i, f. split; auto. split; auto. destruct IM as [b [c [af [_ [[_ SU] _]]]]].
  destruct (F2_nth _ _ _ _ _ SU EF) as [p' [P [k [rs [F AR]]]]]. assert (p' = p) by congruence. subst p'. intros n. rewrite AR. cbn [snd] in F.
  assert (U : forall k' rs', formals f k' rs' -> k' = k /\ rs' = rs).
  { clear - F. revert k rs F. assert (Y : forall o, symbol o -> forall k b, formals o k b -> k = 0 /\ b = true).
    { intros o SO k b F. inversion F; subst; auto; destruct SO as [[? SO]|[? [? SO]]]; discriminate. }
    induction f; intros k rs F k' rs' F'; try solve [exfalso; inversion F as [|o SO|]; subst; destruct SO as [[? SO]|[? [? SO]]]; discriminate].
    - inversion F as [|o SO|]; subst; [|destruct SO as [[? SO]|[? [? SO]]]; discriminate]. inversion F' as [|o SO|]; subst; auto. destruct SO as [[? SO]|[? [? SO]]]; discriminate.
    - assert (SO : symbol (OSym name)) by (left; eauto). destruct (Y _ SO _ _ F), (Y _ SO _ _ F'). subst. auto.
    - assert (SO : symbol (OGensym name id)) by (right; eauto). destruct (Y _ SO _ _ F), (Y _ SO _ _ F'). subst. auto.
    - inversion F as [|o SO|x d j b F1]; subst; [destruct SO as [[? SO]|[? [? SO]]]; discriminate|].
      inversion F' as [|o SO|x d j' b' F1']; subst; [destruct SO as [[? SO]|[? [? SO]]]; discriminate|].
      destruct (IHf2 _ _ F1 _ _ F1') as [-> ->]. auto. }
  unfold takes_count, shown. destruct rs; simpl; split.
  - intros L. exists k, true. auto.
  - intros [k' [b' [F' L]]]. destruct (U _ _ F') as [-> ->]. auto.
  - intros ->. exists k, false. auto.
  - intros [k' [b' [F' L]]]. destruct (U _ _ F') as [-> ->]. auto.
Qed.
(** A lambda expression can implement a method exactly when it accepts the numbers of
    arguments that the formals of the method allow. *)
Theorem C61_lambda (fm : Ast.formals) (body : list expr) a f k b : formals f k b -> clauses_arity ANull [(fm, body)] = Some a ->
  (a = shown k b <-> forall n, takes (fm, body) n <-> takes_count f n).
Proof.
  intros F C. cbn [clauses_arity] in C. unfold formals_len, has_rest in C. cbn [update_arity] in C. injection C as <-.
  assert (U : forall k' rs', formals f k' rs' -> k' = k /\ rs' = b).
  { intros k' rs' F'. assert (E := proj2 (expected_spec f 0 (shown k b)) (ex_intro _ k (ex_intro _ b (conj F eq_refl)))).
    assert (E' := proj2 (expected_spec f 0 (shown k' rs')) (ex_intro _ k' (ex_intro _ rs' (conj F' eq_refl)))).
    rewrite E in E'. destruct b, rs'; simpl in E'; split; congruence. }
  assert (T : forall n, takes_count f n <-> (if b : bool then k <= n else n = k)).
  { intros n. split; [intros [k' [b' [F' L]]]; destruct (U _ _ F') as [-> ->]; auto|intros L; exists k, b; auto]. }
  unfold takes. cbn [fst]. destruct fm as [rq [rs|]]; cbn [rest req]; split.
  - intros E n. rewrite T. destruct b; simpl in E; [injection E as ->; tauto|discriminate].
  - intros H. destruct b.
    + simpl. f_equal. assert (X := proj1 (H _) (le_n _)). apply T in X. assert (Y := proj2 (H k) (proj2 (T k) (le_n _))). lia.
    + exfalso. assert (X := proj1 (T _) (proj1 (H _) (le_n _))). simpl in X. assert (Y := proj1 (T _) (proj1 (H (S (List.length rq))) ltac:(lia))). simpl in Y. lia.
  - intros E n. rewrite T. destruct b; simpl in E; [discriminate|injection E as ->; tauto].
  - intros H. destruct b.
    + exfalso. assert (X := proj2 (H k) (proj2 (T k) (le_n _))). assert (Y := proj2 (H (S k)) (proj2 (T (S k)) ltac:(simpl; lia))). lia.
    + simpl. f_equal. assert (X := proj1 (T _) (proj1 (H _) eq_refl)). simpl in X. auto.
Qed.

(** define-generics: an interface with the methods in the order of the clauses;
    everything else is refused. *)
Inductive identifiers : obj -> Prop :=
| INone : identifiers ONull
| IRest o : symbol o -> identifiers o
| IOne a d : symbol a -> identifiers d -> identifiers (OPair a d).
Lemma check_formals_spec f : check_formals f = true <-> identifiers f.
Proof.
  induction f; cbn [check_formals]; try (split; [discriminate|intros H; inversion H as [|o SO|]; subst; destruct SO as [[? SO]|[? [? SO]]]; discriminate]).
  - split; [constructor|auto].
  - split; [intros _|auto]. apply IRest. left; eauto.
  - split; [intros _|auto]. apply IRest. right; eauto.
  - rewrite andb_true_iff, IHf2, symbolp_spec. split; [intros [A B]; apply IOne; auto|].
    intros H; inversion H as [|o SO|]; subst; auto. destruct SO as [[? SO]|[? [? SO]]]; discriminate.
Qed.
Lemma method_loop_spec cls : forall tbl r, method_loop cls tbl = Some r <->
  exists ms, cls = map (fun m => OPair (fst m) (snd m)) ms /\ (forall m, In m ms -> symbol (fst m) /\ identifiers (snd m)) /\ r = rev ms ++ tbl.
Proof.
  induction cls as [|c cls IH]; intros tbl r; cbn [method_loop].
  - split.
    + intros H. injection H as <-. exists []. split; [auto|]. split; [intros m []|auto].
    + intros [[|m ms] [E [_ ->]]]; [auto|discriminate].
  - destruct c; try (split; [discriminate|intros [[|m ms] [E _]]; discriminate]). destruct (symbolp c1 && check_formals c2) eqn:C.
    + apply andb_true_iff in C as [C1 C2]. apply symbolp_spec in C1. apply check_formals_spec in C2. rewrite IH. split.
      * intros [ms [-> [F ->]]]. exists ((c1, c2) :: ms). split; auto. split; [intros m [<-|I]; auto|]. simpl. rewrite <- app_assoc. auto.
      * intros [[|[m f] ms] [E [F ->]]]; [discriminate|]. injection E as -> -> ->. exists ms. split; auto. split; [intros m' I; apply F; right; auto|].
        simpl. rewrite <- app_assoc. auto.
    + split; [discriminate|]. intros [[|[m f] ms] [E [F ->]]]; [discriminate|]. injection E as -> -> ->. destruct (F (m, f) (or_introl eq_refl)) as [A B].
      cbn [fst snd] in A, B. apply symbolp_spec in A. apply check_formals_spec in B. rewrite A, B in C. discriminate.
Qed.
Theorem C61_define id name cls g : define_generics id name cls = Some g <->
  symbol name /\ exists ms, g = mkGeneric id name ms /\ cls = map (fun m => OPair (fst m) (snd m)) ms /\
                             forall m, In m ms -> symbol (fst m) /\ identifiers (snd m).
Proof.
  unfold define_generics. destruct (symbolp name) eqn:SN.
  - apply symbolp_spec in SN. split.
    + intros H. destruct (method_loop cls []) as [tbl|] eqn:L; [|discriminate]. simpl in H. injection H as <-.
      apply method_loop_spec in L as [ms [-> [F ->]]]. split; auto. exists ms. rewrite app_nil_r, rev_involutive. auto.
    + intros [_ [ms [-> [-> F]]]]. assert (L : method_loop (map (fun m => OPair (fst m) (snd m)) ms) [] = Some (rev ms ++ [])) by (apply method_loop_spec; exists ms; auto).
      rewrite L. simpl. rewrite app_nil_r, rev_involutive. auto.
  - split; [discriminate|]. intros [SY _]. apply symbolp_spec in SY. congruence.
Qed.
(** In an interface that define-generics made, every method can be implemented: there
    is an arity for its formals. *)
Theorem C61_implementable id name cls g : define_generics id name cls = Some g -> exists ps, suits g ps.
Proof.
  intros D. apply C61_define in D as [_ [ms [-> [_ F]]]]. unfold suits. cbn [gmethods]. induction ms as [|m ms IH].
  - exists []. constructor.
  - destruct IH as [ps P]; [intros m' I; apply F; right; auto|]. destruct (F m (or_introl eq_refl)) as [_ ID].
    assert (E : exists k b, formals (snd m) k b).
    { induction ID as [|o SO|a d SA ID [k [b H]]]; [exists 0, false; constructor|exists 0, true; constructor; auto|exists (S k), b; constructor; auto]. }
    destruct E as [k [b E]]. exists (mkProc 0 (shown k b) :: ps). constructor; auto. exists k, b. auto.
Qed.

(** ** What fails *)

(** One would expect the methods of an interface to be reached by their names.
    define-generics accepts two methods of the same name, and both must be
    implemented, but no accessor returns the implementation of the second. *)
Definition sy (s : string) : obj := OSym (s2b s).
Definition ex_twice : list obj := [OPair (sy "m") (OPair (sy "x") ONull); OPair (sy "m") ONull].
Definition ex_twice_g : generic := mkGeneric 7 (sy "g") [(sy "m", OPair (sy "x") ONull); (sy "m", ONull)].
Theorem C61_repeated_method_refuted :
  define_generics 7 (sy "g") ex_twice = Some ex_twice_g /\
  exists cs p q, implements cs 0 ex_twice_g [p; q] /\
    forall m a, generics_accessor (GGeneric ex_twice_g) (GData m) = GOk a -> accessor_apply (run cs) a (GRtd 0) = GOk (Some p) /\ p <> q.
Proof.
  split; [reflexivity|].
  set (p := mkProc 1 (AFix 1)). set (q := mkProc 2 (AFix 0)).
  exists [Add (GRtd 0) (GGeneric ex_twice_g) (GList [GProc p; GProc q])], p, q. split.
  - eexists [], _, []. split; [reflexivity|]. split; [|intros c' ps' []]. split; [reflexivity|]. constructor; [|constructor; [|constructor]].
    + exists 1, false. split; [repeat constructor|reflexivity].
    + exists 0, false. split; [repeat constructor|reflexivity].
  - intros m a H. unfold generics_accessor in H. destruct (symbolp m) eqn:SM; [|discriminate]. apply symbolp_spec in SM.
    destruct (index_of m (method_names ex_twice_g) 0) as [i|] eqn:I; [|discriminate]. injection H as <-. apply method_index in I; auto.
    destruct I as [[f N] M]. destruct i as [|[|[|i]]]; try discriminate.
    + split; [reflexivity|discriminate].
    + exfalso. injection N as <- <-. apply (M 0 (OPair (sy "x") ONull)); [lia|reflexivity].
Qed.
(** One would expect the error about a wrong argument to show that argument.  When the
    name given to generics-accessor is no symbol, the error shows the interface. *)
Theorem C61_error_value_refuted : forall g v, (forall m, symbol m -> v <> GData m) ->
  generics_accessor (GGeneric g) v = GErr (EArgument "symbol?" (GGeneric g)).
Proof.
  intros g v H. unfold generics_accessor. destruct v; auto. destruct (symbolp o) eqn:S1; auto. exfalso. apply (H o); [apply symbolp_spec; auto|auto].
Qed.

(** * Examples *)
(** gen:shape with [area s] and [scale s . args]; two types and an override *)
Definition ex_shape : generic := mkGeneric 1 (sy "shape") [(sy "area", OPair (sy "s") ONull); (sy "scale", OPair (sy "s") (sy "args"))].
Definition ex_other : generic := mkGeneric 2 (sy "shape") (gmethods ex_shape).
Definition pr (n : nat) (a : arity) : gval := GProc (mkProc n a).
Definition ex_calls : list call :=
  [Add (GRtd 5) (GGeneric ex_shape) (GList [pr 10 (AFix 1); pr 11 (APair 1 AFalse)]);
   Add (GRtd 6) (GGeneric ex_shape) (GList [pr 12 (AFix 1); pr 13 (APair 1 AFalse)]);
   Add (GRtd 5) (GGeneric ex_other) (GList [pr 14 (AFix 1); pr 15 (APair 1 AFalse)]);
   Add (GRtd 5) (GGeneric ex_shape) (GList [pr 16 (AFix 1); pr 17 (APair 1 AFalse)]);
   Add (GRtd 5) (GGeneric ex_shape) (GList [pr 18 (AFix 2); pr 19 (APair 1 AFalse)]);  (* refused *)
   Add (GRtd 6) (GGeneric ex_shape) (GList [pr 20 (AFix 1)])].                          (* refused *)
Example C61_known : known ex_calls ex_shape /\ known ex_calls ex_other.
Proof. split; intros c g' I E; repeat (destruct I as [<-|I]; [simpl in E; injection E as <-; simpl; auto; discriminate|]); destruct I. Qed.
Definition call_method (cs : list call) (g : generic) (m : string) (r : nat) : gres (option proc) :=
  gbind (generics_accessor (GGeneric g) (GData (sy m))) (fun a => accessor_apply (run cs) a (GRtd r)).
Example C61_ex_calls :
  map (fun x => call_method ex_calls (fst (fst x)) (snd (fst x)) (snd x))
      [(ex_shape, "area"%string, 5); (ex_shape, "scale"%string, 5); (ex_shape, "scale"%string, 6); (ex_other, "area"%string, 5)]
  = [GOk (Some (mkProc 16 (AFix 1))); GOk (Some (mkProc 17 (APair 1 AFalse))); GOk (Some (mkProc 13 (APair 1 AFalse))); GOk (Some (mkProc 14 (AFix 1)))] /\
  call_method ex_calls ex_other "area" 6 = GErr (ENoInstance ex_other 6) /\ call_method ex_calls ex_shape "volume" 5 = GErr (EMethod (sy "volume")).
Proof. split; [|split]; reflexivity. Qed.
Example C61_ex_define : define_generics 1 (sy "shape")
  [OPair (sy "area") (OPair (sy "s") ONull); OPair (sy "scale") (OPair (sy "s") (sy "args"))] = Some ex_shape.
Proof. reflexivity. Qed.
Example C61_ex_define_refused : define_generics 1 (sy "shape") [OPair (sy "area") (OPair (OTrue) ONull)] = None.
Proof. reflexivity. Qed.
Example C61_ex_names : generic_ids (sy "shape") = Some (sy "gen:shape", sy "gen:shape?").
Proof. reflexivity. Qed.

Print Assumptions C61_accepted.
Print Assumptions C61_method.
Print Assumptions C61_in_bounds.
Print Assumptions C61_instance.
Print Assumptions C61_instance_other.
Print Assumptions C61_method_arity.
Print Assumptions C61_lambda.
Print Assumptions C61_define.
Print Assumptions C61_implementable.
Print Assumptions C61_repeated_method_refuted.
Print Assumptions C61_error_value_refuted.
