(** C68: environments as values of the library. *)
From Coq Require Import ZArith NArith Bool Ascii String List Arith Lia Permutation.
From Verif Require Import Base Hashtable HashtableProofs Env EnvProofs EnvThm EnvLib.
Import ListNotations.
Local Open Scope list_scope.
Local Open Scope nat_scope.

(** * Specification *)
(** An environment: the names in it, each with a value or without one (referred to by
    compiled code but not defined yet). *)
Definition table : Type := nat -> option (option val).
Definition sstate : Type := (list table * nat)%type.
Definition empty : table := fun _ => None.
Definition put (k : nat) (s : option val) (m : table) : table := fun x => if x =? k then Some s else m x.
Definition only (m : table) (ks : list nat) : table := fun x => if in_dec Nat.eq_dec x ks then m x else None.
(** an argument error about v *)
Definition blames (v : val) : out -> Prop := fun o => exists who pred, o = BadArg who pred v.
(** the names of a table, each once, in any order *)
Definition names (m : table) : out -> Prop := fun o => exists ks, o = RetNames ks /\ NoDup ks /\ forall k, In k ks <-> m k <> None.
(** the same object: lists may have equal elements and be different *)
Definition same_object (a b : val) : Prop := match a, b with VList i _, VList j _ => i = j | _, _ => a = b end.
Definition symbolic (v : val) : bool := match v with VSym _ => true | _ => false end.
Definition symbol_in (v : val) : list nat := match v with VSym k => [k] | _ => [] end.
(** The state after a call and what the call may do; [None] when it mentions an
    environment that does not exist. *)
Definition spec (st : sstate) (c : call) : option (sstate * (out -> Prop)) :=
  let at_ (i : nat) (f : table -> sstate * (out -> Prop)) := option_map f (nth_error (fst st) i) in
  let add (m : table) := ((fst st ++ [m], snd st), eq (Ret (VEnv (length (fst st))))) in
  match c with
  | CNew => Some (add empty)
  | CRef (VEnv i) (VSym k) fail =>
      at_ i (fun m => (st, match m k with
                           | Some (Some v) => eq (Ret v)
                           | _ => match fail with
                                  | Some (VProc p) => eq (CallProc p)
                                  | Some v => eq (Ret v)
                                  | None => eq (NotFound k)
                                  end
                           end))
  | CRef (VEnv _) k _ => Some (st, blames k)
  | CRef env _ _ => Some (st, blames env)
  | CSet (VEnv i) (VSym k) v => at_ i (fun m => ((upd i (put k (Some v) m) (fst st), snd st), eq RetVoid))
  | CSet (VEnv _) k _ => Some (st, blames k)
  | CSet env _ _ => Some (st, blames env)
  | CSymbols (VEnv i) => at_ i (fun m => (st, names m))
  | CSymbols env => Some (st, blames env)
  | CCopy (VEnv i) None | CCopy (VEnv i) (Some (VBool _)) => at_ i add
  | CCopy (VEnv i) (Some v) => Some (st, blames v)
  | CCopy env _ => Some (st, blames env)
  | CCopyNames (VEnv i) (VBool _) (VList id l) =>
      if forallb symbolic l then at_ i (fun m => add (only m (flat_map symbol_in l))) else Some (st, blames (VList id l))
  | CCopyNames (VEnv _) (VBool _) v => Some (st, blames v)
  | CCopyNames (VEnv _) v _ => Some (st, blames v)
  | CCopyNames env _ _ => Some (st, blames env)
  | CCurrent => Some (st, eq (Ret (VEnv (snd st))))
  | CSetCurrent (VEnv i) => at_ i (fun _ => ((fst st, i), eq RetVoid))
  | CSetCurrent env => Some (st, blames env)
  | CDefine k v => at_ (snd st) (fun m => ((upd (snd st) (put k (Some v) m) (fst st), snd st), eq RetVoid))
  | CUse k => at_ (snd st) (fun m => ((upd (snd st) (match m k with None => put k None m | Some _ => m end) (fst st), snd st), eq RetVoid))
  end.
(** Calls the library answers as specified: environment-ref is given an environment
    and a symbol; if there is no value, a third argument; if the variable is there it
    has a value, not the third argument itself. *)
Definition regular (st : sstate) (c : call) : Prop :=
  match c with
  | CRef env k fail =>
      exists i k' m, env = VEnv i /\ k = VSym k' /\ nth_error (fst st) i = Some m /\
        match m k' with
        | None => fail <> None
        | Some None => False
        | Some (Some v) => forall f, fail = Some f -> ~ same_object v f
        end
  | CCopyNames _ _ (VList _ l) => forallb symbolic l = true -> NoDup (flat_map symbol_in l) /\ (N.of_nat (length (flat_map symbol_in l)) < 2 ^ 58)%N
  | CCopy (VEnv i) _ => nth_error (fst st) i <> None
  | _ => True
  end.
(** A history that follows the specification, with regular calls only. *)
Inductive follows : sstate -> list call -> sstate -> list (out -> Prop) -> Prop :=
| FNil : forall st, follows st [] st []
| FCons : forall st c st1 P cs st2 Ps, spec st c = Some (st1, P) -> regular st c -> follows st1 cs st2 Ps ->
    follows st (c :: cs) st2 (P :: Ps).
Definition init : sstate := ([empty], 0).

Lemma eqp_spec a b : eqp a b = true <-> same_object a b.
Proof.
  destruct a, b; cbn [eqp same_object]; rewrite ?Nat.eqb_eq, ?Bool.eqb_true_iff; split; intros H; try congruence; discriminate.
Qed.
Lemma eqp_no a b : ~ same_object a b -> eqp a b = false.
Proof. intros H. destruct (eqp a b) eqn:E; auto. apply eqp_spec in E. contradiction. Qed.
Lemma symbols_of_spec l : symbols_of l = if forallb symbolic l then Some (flat_map symbol_in l) else None.
Proof.
  induction l as [|v l IH]; [reflexivity|]. cbn [symbols_of forallb flat_map]. destruct v; try reflexivity.
  rewrite IH. cbn [symbolic andb]. destruct (forallb symbolic l); reflexivity.
Qed.

(** * Proof *)
Section P.
Variable eq_hash : nat -> N.
Hypothesis HR : forall k, (eq_hash k < 2 ^ 64)%N.
Notation sg := (aget nat (slotv val) Nat.eqb).
Notation sp := (Env.spec nat val).
Definition tabs (al : list (list (nat * slotv val))) (ms : list table) : Prop :=
  Forall2 (fun a (m : table) => forall k, sg a k = m k) al ms.
Record inv (s : state) (st : sstate) (n : nat) : Prop := {
  i_sp : exists p : sp, world_ok nat val eq_hash (tables s) p /\ small nat val p n /\ tabs (senvs _ _ p) (fst st);
  i_cur : current s = snd st;
  i_lt : snd st < length (fst st) }.
Lemma prim : forall s p n o p' x, world_ok nat val eq_hash (tables s) p -> small nat val p n -> (N.of_nat n < 2 ^ 58)%N ->
  op_ok nat val o -> sp_step nat val Nat.eqb p o = Some (p', x) ->
  exists w y, estep nat val eq_hash Nat.eqb (tables s) o = Some (w, y) /\ out_eq nat val y x /\ world_ok nat val eq_hash w p' /\ small nat val p' (S n).
Proof.
  intros s p n o p' x W S0 B OK H.
  assert (B' : (N.of_nat n < 2 ^ 59)%N) by (eapply N.lt_trans; [exact B|reflexivity]).
  destruct (step_refines nat val eq_hash Nat.eqb Nat.eqb_eq HR _ _ _ _ _ _ W S0 B' OK H) as [S1 [w [y [E [Q W']]]]].
  exists w, y. auto.
Qed.
Lemma tabs_nth : forall al ms i m, tabs al ms -> nth_error ms i = Some m -> exists a, nth_error al i = Some a /\ forall k, sg a k = m k.
Proof.
  intros al ms i m H. revert i m. induction H; intros [|i] m0 E; cbn in *; try discriminate; eauto. injection E as <-. eauto.
Qed.
Lemma tabs_length : forall al ms, tabs al ms -> length al = length ms.
Proof. induction 1; cbn; auto. Qed.
Lemma tabs_upd : forall al ms i a (m : table), tabs al ms -> (forall k, sg a k = m k) -> tabs (upd i a al) (upd i m ms).
Proof. intros al ms i a m H. revert i. induction H; intros [|i] E; cbn; constructor; auto. apply IHForall2; auto. Qed.
Lemma tabs_snoc : forall al ms a (m : table), tabs al ms -> (forall k, sg a k = m k) -> tabs (al ++ [a]) (ms ++ [m]).
Proof. intros. apply Forall2_app; auto. Qed.
Lemma put_sget : forall a (m : table) k v, (forall x, sg a x = m x) -> forall x, sg (aset nat (slotv val) Nat.eqb a k v) x = put k v m x.
Proof.
  intros a m k v H x. unfold put. rewrite (sget_sset nat val Nat.eqb Nat.eqb_eq), (Nat.eqb_sym k x).
  destruct (x =? k); auto.
Qed.
Lemma names_ok : forall a (m : table) ks, NoDup (map fst a) -> (forall x, sg a x = m x) -> Permutation ks (map fst a) ->
  NoDup ks /\ forall k, In k ks <-> m k <> None.
Proof.
  intros a m ks N H P. split.
  - eapply Permutation_NoDup; [symmetry; exact P|exact N].
  - intros k. rewrite <- H. split.
    + intros I0 E. apply (Permutation_in _ P) in I0. apply (sget_none nat val Nat.eqb Nat.eqb_eq) in E. auto.
    + intros E. apply (Permutation_in _ (Permutation_sym P)).
      destruct (in_dec Nat.eq_dec k (map fst a)) as [|n0]; auto.
      apply (sget_none nat val Nat.eqb Nat.eqb_eq) in n0. exfalso. apply E. exact n0.
Qed.
Lemma only_sget : forall a (m : table) ks, NoDup (map fst a) -> NoDup ks -> (forall x, sg a x = m x) ->
  forall x, sg (restrict nat val Nat.eqb a ks) x = only m ks x.
Proof.
  intros a m ks N N' H x. unfold only.
  destruct (sget_restrict nat val Nat.eqb Nat.eqb_eq a ks x N N') as [G1 G2].
  destruct (in_dec Nat.eq_dec x ks); [rewrite G1 by auto; apply H|apply G2; auto].
Qed.
Ltac next := match goal with |- exists s' o, Some (?a, ?b) = Some (s', o) /\ _ => exists a, b; split; [reflexivity|] end.
Lemma lstep_ok : forall s st n c st1 P, inv s st n -> (N.of_nat n < 2 ^ 58)%N -> spec st c = Some (st1, P) -> regular st c ->
  exists s' o, lstep eq_hash s c = Some (s', o) /\ P o /\ inv s' st1 (S n).
Proof.
  intros s st n c st1 P [[p [W [Sm T]]] Ec Lt] B E R.
  assert (Up : inv s st (S n)).
  { constructor; auto. exists p. split; auto. split; auto. eapply Forall_impl; [|exact Sm]. cbn. intros. lia. }
  assert (Len : length (senvs nat val p) = length (fst st)) by (apply tabs_length; auto).
  assert (At : forall i (f : table -> sstate * (out -> Prop)), option_map f (nth_error (fst st) i) = Some (st1, P) ->
     exists m a, nth_error (fst st) i = Some m /\ f m = (st1, P) /\ nth_error (senvs nat val p) i = Some a /\
       (forall k, sg a k = m k) /\ NoDup (map fst a) /\ length a <= n).
  { intros i f H. destruct (nth_error (fst st) i) as [m|] eqn:Em; [|discriminate]. injection H as H.
    destruct (tabs_nth _ _ _ _ T Em) as [a [Ea Ha]]. exists m, a.
    destruct (world_env _ _ _ _ _ _ _ W Ea) as [e [_ [Eo _]]].
    repeat (split; auto).
    - apply (eo_keys _ _ _ _ _ _ Eo).
    - unfold small in Sm. rewrite Forall_forall in Sm. apply Sm. eapply nth_error_In; eauto. }
  (* writing a variable of an environment *)
  assert (Wr : forall i k v m a, nth_error (fst st) i = Some m -> nth_error (senvs nat val p) i = Some a -> (forall x, sg a x = m x) ->
     exists w y, estep nat val eq_hash Nat.eqb (tables s) (ESet _ _ i k v) = Some (w, y) /\
       inv (mkstate w (current s)) (upd i (put k (Some v) m) (fst st), snd st) (S n)).
  { intros i k v m a Em Ea Ha.
    destruct (prim s p n (ESet _ _ i k v) (mkspec _ _ (upd i (aset nat (slotv val) Nat.eqb a k (Some v)) (senvs _ _ p)) (srefs _ _ p)) (XVoid _ _) W Sm B Logic.I)
      as [w [y [E1 [_ [W1 S1]]]]].
    { cbn [sp_step]. rewrite Ea. reflexivity. }
    exists w, y. split; auto. constructor; cbn [tables current fst snd].
    - eexists. split; [exact W1|]. split; [exact S1|]. cbn [senvs]. apply tabs_upd; auto. apply put_sget. auto.
    - exact Ec.
    - rewrite upd_length. exact Lt. }
  (* copying the given names *)
  assert (Cp : forall i b ks m a, nth_error (fst st) i = Some m -> nth_error (senvs nat val p) i = Some a -> (forall x, sg a x = m x) ->
     NoDup (map fst a) -> NoDup ks -> (N.of_nat (length ks) < 2 ^ 58)%N ->
     exists s', do_copy eq_hash s i b ks = Some (s', Ret (VEnv (length (fst st)))) /\
       forall m', (forall x, only m ks x = m' x) -> inv s' (fst st ++ [m'], snd st) (S n)).
  { intros i b ks m a Em Ea Ha Nd Nk Lk.
    destruct (prim s p n (ECopy _ _ i b ks) (mkspec _ _ (senvs _ _ p ++ [restrict nat val Nat.eqb a ks]) (srefs _ _ p)) (XEnv _ _ (length (senvs _ _ p))) W Sm B)
      as [w [y [E1 [Q [W1 S1]]]]].
    { split; auto. eapply N.lt_trans; [exact Lk|reflexivity]. }
    { cbn [sp_step]. rewrite Ea. reflexivity. }
    destruct y; cbn in Q; try discriminate. injection Q as Q.
    unfold do_copy. rewrite E1, Q, Len. eexists. split; [reflexivity|].
    intros m' Hm. constructor; cbn [tables current fst snd].
    - eexists. split; [exact W1|]. split; [exact S1|]. cbn [senvs]. apply tabs_snoc; auto.
      intros x. rewrite (only_sget a m ks); auto.
    - exact Ec.
    - rewrite app_length. lia. }
  (* names of an environment *)
  assert (Nm : forall i a (m : table), nth_error (senvs nat val p) i = Some a -> (forall x, sg a x = m x) -> NoDup (map fst a) ->
     exists ks, environment_symbols eq_hash s (VEnv i) = Some (s, RetNames ks) /\ NoDup ks /\ (forall k, In k ks <-> m k <> None) /\ length ks = length a).
  { intros i a m Ea Ha Nd.
    destruct (prim s p n (ENames _ _ i) p (XNames _ _ (map fst a)) W Sm B Logic.I) as [w [y [E1 [Q _]]]].
    { cbn [sp_step]. rewrite Ea. reflexivity. }
    destruct y; cbn in Q; try discriminate.
    destruct (names_ok a m _ Nd Ha Q) as [N1 N2]. apply Permutation_length in Q. rewrite map_length in Q.
    unfold environment_symbols. rewrite E1. eauto. }
  destruct c as [|env k fail|env k v|env|env mut|env mut syms| |env|k v|k]; cbn [lstep].
  - (* CNew *)
    injection E as <- <-.
    destruct (prim s p n (ENew _ _) (mkspec _ _ (senvs _ _ p ++ [[]]) (srefs _ _ p)) (XEnv _ _ (length (senvs _ _ p))) W Sm B Logic.I) as [w [y [E1 [Q [W1 S1]]]]].
    { reflexivity. }
    destruct y; cbn in Q; try discriminate. injection Q as Q.
    rewrite E1. next. split; [congruence|]. constructor; cbn [tables current fst snd].
    + eexists. split; [exact W1|]. split; [exact S1|]. cbn [senvs]. apply tabs_snoc; auto.
    + exact Ec.
    + rewrite app_length. lia.
  - (* CRef *)
    destruct R as [i [k' [m0 [-> [-> [Em R]]]]]]. cbn [spec] in E.
    destruct (At _ _ E) as [m [a [Em' [E' [Ea [Ha [Nd Ln]]]]]]]. rewrite Em in Em'. injection Em' as <-. injection E' as <- <-.
    cbn [environment_ref]. 
    destruct (prim s p n (EGet _ _ i k') p (match m0 k' with Some x => xval _ _ x | None => XMissing _ _ end) W Sm B Logic.I) as [w [y [E1 [Q _]]]].
    { cbn [sp_step]. rewrite Ea, Ha. reflexivity. }
    rewrite E1. destruct (m0 k') as [[v|]|]; cbn in R, Q; [|contradiction|].
    + destruct y; cbn in Q; try discriminate. injection Q as ->. next. split; auto.
      destruct fail as [f|]; auto. rewrite (eqp_no _ _ (R f eq_refl)); auto.
    + destruct y; cbn in Q; try discriminate. next. split; auto. destruct fail as [[]|]; cbn; congruence.
  - (* CSet *)
    destruct env; cbn [spec] in E; try (injection E as <- <-; cbn [environment_set]; next; split; [do 2 eexists; reflexivity|exact Up]).
    destruct k; cbn [spec] in E; try (injection E as <- <-; cbn [environment_set]; next; split; [do 2 eexists; reflexivity|exact Up]).
    destruct (At _ _ E) as [m [a [Em [E' [Ea [Ha [Nd Ln]]]]]]]. injection E' as <- <-.
    destruct (Wr _ k v _ _ Em Ea Ha) as [w [y [E1 I1]]]. cbn [environment_set]. rewrite E1. next. auto.
  - (* CSymbols *)
    destruct env; cbn [spec] in E; try (injection E as <- <-; cbn [environment_symbols]; next; split; [do 2 eexists; reflexivity|exact Up]).
    destruct (At _ _ E) as [m [a [Em [E' [Ea [Ha [Nd Ln]]]]]]]. injection E' as <- <-.
    destruct (Nm _ _ _ Ea Ha Nd) as [ks [E1 [N1 [N2 _]]]]. rewrite E1. next. split; auto. exists ks. auto.
  - (* CCopy *)
    unfold copy_all. destruct env; cbn [spec] in E; try (injection E as <- <-; cbn [environment_symbols]; next; split; [do 2 eexists; reflexivity|exact Up]).
    assert (exists m a, nth_error (fst st) i = Some m /\ nth_error (senvs nat val p) i = Some a /\ (forall k, sg a k = m k) /\ NoDup (map fst a) /\ length a <= n) as [m [a [Em [Ea [Ha [Nd Ln]]]]]].
    { cbn in R. destruct (nth_error (fst st) i) as [m|] eqn:Em; [|congruence].
      destruct (tabs_nth _ _ _ _ T Em) as [a [Ea Ha]]. exists m, a.
      destruct (world_env _ _ _ _ _ _ _ W Ea) as [e [_ [Eo _]]].
      repeat (split; auto).
      - apply (eo_keys _ _ _ _ _ _ Eo).
      - unfold small in Sm. rewrite Forall_forall in Sm. apply Sm. eapply nth_error_In; eauto. }
    destruct (Nm _ _ _ Ea Ha Nd) as [ks [E1 [N1 [N2 N3]]]]. rewrite E1.
    assert (Lk : (N.of_nat (length ks) < 2 ^ 58)%N) by (eapply N.le_lt_trans; [|exact B]; lia).
    assert (Al : forall x, only m ks x = m x).
    { intros x. unfold only. destruct (in_dec Nat.eq_dec x ks) as [|n0]; auto. rewrite N2 in n0. destruct (m x); auto. exfalso. apply n0. discriminate. }
    destruct mut as [[]|]; cbn [spec] in E;
      try (injection E as <- <-; next; split; [do 2 eexists; reflexivity|exact Up]).
    + rewrite Em in E. injection E as <- <-. destruct (Cp i b ks _ _ Em Ea Ha Nd N1 Lk) as [s' [E2 I2]]. rewrite E2. next. auto.
    + rewrite Em in E. injection E as <- <-. destruct (Cp i true ks _ _ Em Ea Ha Nd N1 Lk) as [s' [E2 I2]]. rewrite E2. next. auto.
  - (* CCopyNames *)
    destruct env; cbn [spec] in E; try (injection E as <- <-; cbn [copy_named]; next; split; [do 2 eexists; reflexivity|exact Up]).
    destruct mut; cbn [spec] in E; try (injection E as <- <-; cbn [copy_named]; next; split; [do 2 eexists; reflexivity|exact Up]).
    destruct syms; cbn [spec] in E; try (injection E as <- <-; cbn [copy_named]; next; split; [do 2 eexists; reflexivity|exact Up]).
    cbn [copy_named]. cbn in R. rewrite symbols_of_spec. destruct (forallb symbolic l) eqn:El.
    + destruct (R eq_refl) as [Nk Lk]. destruct (At _ _ E) as [m [a [Em [E' [Ea [Ha [Nd Ln]]]]]]]. injection E' as <- <-.
      destruct (Cp i b _ _ _ Em Ea Ha Nd Nk Lk) as [s' [E2 I2]]. rewrite E2. next. auto.
    + injection E as <- <-. next. split; [do 2 eexists; reflexivity|exact Up].
  - (* CCurrent *)
    injection E as <- <-. next. rewrite Ec. auto.
  - (* CSetCurrent *)
    destruct env; cbn [spec] in E; try (injection E as <- <-; next; split; [do 2 eexists; reflexivity|exact Up]).
    destruct (At _ _ E) as [m [a [Em [E' _]]]]. injection E' as <- <-. next. split; auto.
    destruct Up as [U _ _]. constructor; cbn [tables current fst snd]; auto.
    apply nth_error_Some. congruence.
  - (* CDefine *)
    cbn [spec] in E. destruct (At _ _ E) as [m [a [Em [E' [Ea [Ha [Nd Ln]]]]]]]. injection E' as <- <-.
    destruct (Wr _ k v _ _ Em Ea Ha) as [w [y [E1 I1]]]. rewrite <- Ec in E1 at 1. rewrite E1. next. auto.
  - (* CUse *)
    cbn [spec] in E. destruct (At _ _ E) as [m [a [Em [E' [Ea [Ha [Nd Ln]]]]]]]. injection E' as <- <-. rewrite Ec.
    destruct (prim s p n (ERef _ _ (snd st) k)
       (mkspec _ _ (upd (snd st) (match sg a k with Some _ => a | None => aset nat (slotv val) Nat.eqb a k None end) (senvs _ _ p)) (srefs _ _ p ++ [(snd st, k)]))
       (XRef _ _ (length (srefs _ _ p))) W Sm B Logic.I) as [w [y [E1 [_ [W1 S1]]]]].
    { cbn [sp_step]. rewrite Ea. reflexivity. }
    rewrite E1. next. split; auto. constructor; cbn [tables current fst snd]; auto.
    + eexists. split; [exact W1|]. split; [exact S1|]. cbn [senvs]. apply tabs_upd; auto. rewrite Ha. destruct (m k); auto.
      apply put_sget. auto.
    + rewrite upd_length. exact Lt.
Qed.
Lemma lrun_ok : forall st cs st2 Ps, follows st cs st2 Ps -> forall s n, inv s st n -> (N.of_nat (n + length cs) < 2 ^ 58)%N ->
  exists s' os, lrun eq_hash s cs = Some (s', os) /\ Forall2 (fun P o => P o) Ps os.
Proof.
  induction 1 as [|st c st1 P cs st2 Ps E R F IH]; intros s n I0 B; cbn [lrun].
  - do 2 eexists. split; [reflexivity|constructor].
  - cbn [length] in B.
    assert (B1 : (N.of_nat n < 2 ^ 58)%N) by (eapply N.le_lt_trans; [|exact B]; lia).
    destruct (lstep_ok _ _ _ _ _ _ I0 B1 E R) as [s' [o [E1 [Q I1]]]].
    rewrite E1. destruct (IH s' (S n) I1) as [s2 [os [E2 F2]]].
    { rewrite <- Nat.add_succ_comm in B. exact B. }
    rewrite E2. do 2 eexists. split; [reflexivity|]. constructor; auto.
Qed.
Lemma start_ok : exists s, start eq_hash = Some s /\ inv s init 1.
Proof.
  destruct (prim (mkstate (world0 _ _) 0) (spec0 _ _) 0 (ENew _ _) (mkspec _ _ [[]] []) (XEnv _ _ 0)) as [w [y [E1 [Q [W1 S1]]]]].
  - apply world0_ok.
  - constructor.
  - reflexivity.
  - exact Logic.I.
  - reflexivity.
  - unfold start. cbn [tables] in E1. rewrite E1. eexists. split; [reflexivity|]. constructor; cbn.
    + eexists. split; [exact W1|]. split; [exact S1|]. constructor; [|constructor]. auto.
    + reflexivity.
    + lia.
Qed.
End P.

(** * Theorems *)
(** The answers of a history of calls, and the answer to one more call. *)
Definition answers (eq_hash : nat -> N) (cs : list call) : option (list out) :=
  match start eq_hash with Some s => option_map snd (lrun eq_hash s cs) | None => None end.
Definition hashes (eq_hash : nat -> N) : Prop := forall k, (eq_hash k < 2 ^ 64)%N.

(** Every history of regular calls is answered as specified.  Missing: calls that are
    not regular, see the refutations below. *)
Theorem C68_refines_partial : forall eq_hash cs st Ps, hashes eq_hash ->
  follows init cs st Ps -> (N.of_nat (S (length cs)) < 2 ^ 58)%N ->
  exists os, answers eq_hash cs = Some os /\ Forall2 (fun P o => P o) Ps os.
Proof.
  intros h cs st Ps H F B. destruct (start_ok h H) as [s [E I0]].
  destruct (lrun_ok h H _ _ _ _ F s 1 I0) as [s' [os [E1 Q]]]; [exact B|].
  exists os. unfold answers. rewrite E, E1. auto.
Qed.

(** What the specification says, for reading. *)
Lemma follows_app : forall st cs st1 Ps, follows st cs st1 Ps -> forall c st2 P, spec st1 c = Some (st2, P) -> regular st1 c ->
  follows st (cs ++ [c]) st2 (Ps ++ [P]).
Proof. induction 1; intros; cbn; econstructor; eauto. constructor. Qed.
Lemma last_answer : forall eq_hash cs st Ps c st2 P, hashes eq_hash -> follows init cs st Ps -> spec st c = Some (st2, P) -> regular st c ->
  (N.of_nat (S (S (length cs))) < 2 ^ 58)%N ->
  exists os o, answers eq_hash (cs ++ [c]) = Some (os ++ [o]) /\ P o.
Proof.
  intros h cs st Ps c st2 P H F E R B.
  destruct (C68_refines_partial h (cs ++ [c]) st2 (Ps ++ [P]) H) as [os [Q F2]].
  - eapply follows_app; eauto.
  - rewrite app_length, Nat.add_1_r. exact B.
  - apply Forall2_app_inv_l in F2 as [l1 [l2 [F1 [F2 ->]]]]. inversion F2 as [|? o ? ? Ho F3]; subst. inversion F3; subst. eauto.
Qed.

(** After any regular history: a variable set through the library, or by a definition
    at the prompt when the environment is the current one, is read back by the library. *)
Theorem C68_set_then_ref : forall eq_hash cs st Ps i k v fail, hashes eq_hash -> follows init cs st Ps ->
  nth_error (fst st) i <> None -> (forall f, fail = Some f -> ~ same_object v f) ->
  (N.of_nat (S (S (S (length cs)))) < 2 ^ 58)%N ->
  forall c, c = CSet (VEnv i) (VSym k) v \/ (c = CDefine k v /\ i = snd st) ->
  exists os, answers eq_hash (cs ++ [c] ++ [CRef (VEnv i) (VSym k) fail]) = Some (os ++ [Ret v]).
Proof.
  intros h cs st Ps i k v fail H F Ni Hf B c Hc.
  destruct (nth_error (fst st) i) as [m|] eqn:Em; [|congruence].
  assert (Lt : i < length (fst st)) by (apply nth_error_Some; congruence).
  set (st1 := (upd i (put k (Some v) m) (fst st), snd st)).
  assert (E : spec st c = Some (st1, eq RetVoid)).
  { destruct Hc as [->|[-> ->]]; cbn [spec]; rewrite Em; reflexivity. }
  assert (R : regular st c) by (destruct Hc as [->|[-> _]]; exact Logic.I).
  assert (Hn : nth_error (fst st1) i = Some (put k (Some v) m)) by (apply nth_upd_eq; auto).
  pose proof (follows_app _ _ _ _ F _ _ _ E R) as F1.
  destruct (last_answer h _ _ _ (CRef (VEnv i) (VSym k) fail) st1 (eq (Ret v)) H F1) as [os [o [Q <-]]].
  - cbn [spec]. rewrite Hn. cbn. unfold put. rewrite Nat.eqb_refl. reflexivity.
  - exists i, k, (put k (Some v) m). repeat (split; [reflexivity || exact Hn|]). unfold put. rewrite Nat.eqb_refl. exact Hf.
  - rewrite app_length, Nat.add_1_r. exact B.
  - exists os. rewrite app_assoc. exact Q.
Qed.
(** A copy does not see later changes of the original, nor the original those of the copy. *)
Theorem C68_copy_is_separate : forall eq_hash cs st Ps i m k k' v fail, hashes eq_hash -> follows init cs st Ps ->
  nth_error (fst st) i = Some m -> m k <> Some None -> (forall v', m k = Some (Some v') -> ~ same_object v' fail) ->
  (N.of_nat (S (S (S (S (length cs))))) < 2 ^ 58)%N ->
  let j := length (fst st) in
  forall a b, (a = i /\ b = j) \/ (a = j /\ b = i) ->
  exists os o, answers eq_hash (((cs ++ [CCopy (VEnv i) None]) ++ [CSet (VEnv a) (VSym k') v]) ++ [CRef (VEnv b) (VSym k) (Some fail)]) = Some (os ++ [o]) /\
    o = match m k, fail with
        | Some (Some v'), _ => Ret v'
        | _, VProc p => CallProc p
        | _, f => Ret f
        end.
Proof.
  intros h cs st Ps i m k k' v fail H F Em Nm Hf B j a b Hab.
  assert (Lt : i < length (fst st)) by (apply nth_error_Some; congruence).
  set (st1 := (fst st ++ [m], snd st)).
  assert (E1 : spec st (CCopy (VEnv i) None) = Some (st1, eq (Ret (VEnv j)))) by (cbn [spec]; rewrite Em; reflexivity).
  assert (R1 : regular st (CCopy (VEnv i) None)) by (cbn; congruence).
  pose proof (follows_app _ _ _ _ F _ _ _ E1 R1) as F1.
  assert (Gi : nth_error (fst st1) i = Some m) by (cbn; rewrite nth_error_app1; auto).
  assert (Gj : nth_error (fst st1) j = Some m) by (cbn; unfold j; rewrite nth_error_app2, Nat.sub_diag by lia; reflexivity).
  assert (Ga : nth_error (fst st1) a = Some m) by (destruct Hab as [[-> ->]|[-> ->]]; auto).
  assert (Gb : nth_error (fst st1) b = Some m) by (destruct Hab as [[-> ->]|[-> ->]]; auto).
  assert (Nab : a <> b) by (unfold j in Hab; lia).
  set (st2 := (upd a (put k' (Some v) m) (fst st1), snd st1)).
  assert (E2 : spec st1 (CSet (VEnv a) (VSym k') v) = Some (st2, eq RetVoid)) by (cbn [spec]; rewrite Ga; reflexivity).
  pose proof (follows_app _ _ _ _ F1 _ _ _ E2 Logic.I) as F2.
  assert (G2 : nth_error (fst st2) b = Some m) by (cbn [fst st2]; rewrite nth_upd_ne; auto).
  destruct (last_answer h _ _ _ (CRef (VEnv b) (VSym k) (Some fail)) st2
     (match m k with Some (Some v) => eq (Ret v) | _ => match fail with VProc p => eq (CallProc p) | f => eq (Ret f) end end) H F2) as [os [o [Q HQ]]].
  - cbn [spec]. rewrite G2. cbn. destruct (m k) as [[v'|]|]; destruct fail; reflexivity.
  - exists b, k, m. repeat (split; [reflexivity || exact G2|]). destruct (m k) as [[v'|]|]; [|congruence|congruence]. intros f Ef. injection Ef as <-. auto.
  - rewrite !app_length. cbn [length]. rewrite !Nat.add_1_r. exact B.
  - exists os, o. split; [exact Q|]. destruct (m k) as [[v'|]|]; destruct fail; auto.
Qed.

(** A concrete history meets the hypotheses: set, redefine at the prompt, copy,
    change the original, read the copy, read a missing name with a default. *)
Definition h0 (k : nat) : N := N.of_nat k mod 7.
Definition hist : list call :=
  [CSet (VEnv 0) (VSym 3) (VOther 7); CDefine 3 (VOther 8); CCopy (VEnv 0) None; CSet (VEnv 0) (VSym 3) (VOther 9);
   CSetCurrent (VEnv 1); CDefine 10 (VSym 5); CRef (VEnv 0) (VSym 3) None; CRef (VEnv 1) (VSym 3) (Some (VBool false));
   CRef (VEnv 0) (VSym 10) (Some (VProc 4)); CSymbols (VEnv 1); CCopyNames (VEnv 1) (VBool false) (VList 0 [VSym 10; VSym 11]);
   CSymbols (VEnv 2); CCurrent; CSet (VOther 1) (VSym 3) (VOther 0)].
Example C68_met : hashes h0 /\ (exists st Ps, follows init hist st Ps) /\ (N.of_nat (S (length hist)) < 2 ^ 58)%N /\
  answers h0 hist = Some [RetVoid; RetVoid; Ret (VEnv 1); RetVoid; RetVoid; RetVoid; Ret (VOther 9); Ret (VOther 8);
    CallProc 4; RetNames [3; 10]; Ret (VEnv 2); RetNames [10]; Ret (VEnv 1); BadArg "environment-set!" "environment?" (VOther 1)].
Proof.
  split; [|split; [|split]].
  - intros k. unfold h0. eapply N.lt_trans; [apply N.mod_lt; discriminate|reflexivity].
  - do 2 eexists. unfold hist, init.
    repeat (eapply FCons; [cbn -[Nat.eqb]; reflexivity| |]);
      [..|apply FNil]; try exact Logic.I.
    + cbn. discriminate.
    + do 3 eexists. repeat (split; [reflexivity|]). cbn. discriminate.
    + do 3 eexists. repeat (split; [reflexivity|]). cbn. intros f E. injection E as <-. discriminate.
    + do 3 eexists. repeat (split; [reflexivity|]). cbn. discriminate.
    + cbn. intros _. split; [|reflexivity].
      constructor; [intros [|[]]; discriminate|]. constructor; [intros []|]. constructor.
  - reflexivity.
  - vm_compute. reflexivity.
Qed.

(** * Refutations *)
(** A missing variable is reported, when no third argument is given: the library's own
    procedure for that case has two parameters but is called without arguments. *)
Theorem C68_missing_key_refuted : exists cs os st Ps, follows init cs st Ps /\
  spec st (CRef (VEnv 0) (VSym 1) None) = Some (st, eq (NotFound 1)) /\
  answers h0 (cs ++ [CRef (VEnv 0) (VSym 1) None]) = Some (os ++ [BadArity]).
Proof.
  exists [], [], init, []. split; [constructor|]. split; [reflexivity|]. vm_compute. reflexivity.
Qed.
(** so it is for every such call on an environment without the variable *)
Theorem C68_missing_key_always : forall eq_hash s i k r, environment_ref eq_hash s (VEnv i) (VSym k) None = Some r -> snd r <> NotFound k.
Proof.
  intros h s i k r. cbn [environment_ref]. destruct estep as [[w []]|]; try discriminate; intros E; injection E as <-; discriminate.
Qed.
(** A wrong argument of environment-ref is an argument error about it: for every
    wrong argument the error is about a variable that is not defined. *)
Theorem C68_wrong_argument_refuted : exists v, ~ (exists i, v = VEnv i) /\
  spec init (CRef v (VSym 1) None) = Some (init, blames v) /\
  answers h0 [CRef v (VSym 1) None] = Some [NoVariable "raise-arugment-error"] /\
  ~ blames v (NoVariable "raise-arugment-error").
Proof.
  exists (VOther 0). split; [intros [i E]; discriminate|]. split; [reflexivity|]. split; [vm_compute; reflexivity|].
  intros [who [pred E]]. discriminate.
Qed.
(** A variable that was referred to but never defined is missing: the internal marker
    is returned instead of the third argument. *)
Theorem C68_undefined_variable_refuted : exists cs st Ps, follows init cs st Ps /\
  spec st (CRef (VEnv 0) (VSym 1) (Some (VBool false))) = Some (st, eq (Ret (VBool false))) /\
  answers h0 (cs ++ [CRef (VEnv 0) (VSym 1) (Some (VBool false))]) = Some [RetVoid; RetMarker].
Proof.
  exists [CUse 1]. do 2 eexists. split.
  - eapply FCons; [cbn; reflexivity|exact Logic.I|apply FNil].
  - split; [reflexivity|vm_compute; reflexivity].
Qed.
(** The value of a variable is returned: when it is the third argument itself and a
    procedure, that is called instead. *)
Theorem C68_default_value_refuted : exists cs st Ps, follows init cs st Ps /\
  spec st (CRef (VEnv 0) (VSym 1) (Some (VProc 4))) = Some (st, eq (Ret (VProc 4))) /\
  answers h0 (cs ++ [CRef (VEnv 0) (VSym 1) (Some (VProc 4))]) = Some [RetVoid; CallProc 4].
Proof.
  exists [CDefine 1 (VProc 4)]. do 2 eexists. split.
  - eapply FCons; [cbn; reflexivity|exact Logic.I|apply FNil].
  - split; [reflexivity|vm_compute; reflexivity].
Qed.

Print Assumptions C68_refines_partial.
Print Assumptions C68_set_then_ref.
Print Assumptions C68_copy_is_separate.
Print Assumptions C68_missing_key_refuted.
Print Assumptions C68_missing_key_always.
Print Assumptions C68_wrong_argument_refuted.
Print Assumptions C68_undefined_variable_refuted.
Print Assumptions C68_default_value_refuted.
