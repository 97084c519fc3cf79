(** Making the boot file: specification and lemmas. *)
From Coq Require Import ZArith NArith Bool Ascii String List Arith Lia.
From Verif Require Import Base Decimal Reader ReaderProofs ReaderThm WriteThm LibRead StxCase Check Expand CheckThm ExpandProofs LibSource LibBoot LibBuild.
Import ListNotations.
Local Open Scope string_scope.
Local Open Scope list_scope.

(** ** Specification *)

(** What the built-in reader finds in a file, form by form up to its end (the loop of
    load_file, src/core/c/system.c 108-112). *)
Inductive file_data : list byte -> list obj -> Prop :=
| FdEnd s k : Reader.reads s no_object k -> file_data s []
| FdForm s o k ds : Reader.reads s o k -> o <> no_object -> file_data k ds -> file_data s (o :: ds).

(** The forms of an expanded module that go into the boot file: the definitions, in
    their order, but for those whose first name is excluded. *)
Inductive kept (exclude : list obj) : list obj -> list obj -> Prop :=
| KeNil : kept exclude [] []
| KeDefinition n ns r es ds :
    ~ In n exclude -> kept exclude es ds ->
    kept exclude (olist (sym "define-values" :: olist (n :: ns) :: r) :: es) (olist (sym "define-values" :: olist (n :: ns) :: r) :: ds)
| KeExcluded n ns r es ds :
    In n exclude -> kept exclude es ds -> kept exclude (olist (sym "define-values" :: olist (n :: ns) :: r) :: es) ds
| KeOther e es ds : ~ (exists q, e = OPair (sym "define-values") q) -> kept exclude es ds -> kept exclude (e :: es) ds.

(** ** Reading what was written *)
Lemma readable_object o : readable write_string false false o -> o <> no_object.
Proof. intros R ->. inversion R. Qed.
Lemma reads_newline s o k : Reader.reads s o k -> Reader.reads ("010"%char :: s) o k.
Proof. intros [f R]. destruct f; [discriminate|]. exists (S f). rewrite <- R. reflexivity. Qed.
Lemma written_data ds : Forall (readable write_string false false) ds -> forall t es, file_data t es -> file_data (flat_map (fun o => write o ++ ["010"%char]) ds ++ t) (ds ++ es).
Proof.
  induction 1 as [|d ds R _ IH]; intros t es T; auto. cbn [flat_map app]. rewrite <- !app_assoc. 
  apply (FdForm _ d ("010"%char :: flat_map (fun o => write o ++ ["010"%char]) ds ++ t)).
  - apply C23_write_read_partial; auto.
  - apply readable_object; auto.
  - specialize (IH t es T). inversion IH; subst.
    + eapply FdEnd. apply reads_newline. eauto.
    + eapply FdForm; eauto. apply reads_newline. eauto.
Qed.
Lemma file_data_det s ds : file_data s ds -> forall es, file_data s es -> ds = es.
Proof.
  induction 1 as [s k R|s o k ds R N _ IH]; intros es H; inversion H; subst; auto;
    match goal with A : Reader.reads s _ _, B : Reader.reads s _ _ |- _ => destruct (reads_det _ _ _ _ _ A B); subst end; try contradiction.
  f_equal. auto.
Qed.

(** ** The definitions of a module *)
Lemma obj_sym_dec_eq a b : obj_sym_dec a b = true -> a = b.
Proof.
  destruct a, b; simpl; try discriminate; destruct (name_dec _ _) as [->|]; try discriminate; auto.
  intros H. apply N.eqb_eq in H. subst. auto.
Qed.
Lemma obj_sym_dec_refl a : symbol a -> obj_sym_dec a a = true.
Proof. intros [[n ->]|[n [i ->]]]; simpl; destruct (name_dec n n); try contradiction; auto. apply N.eqb_refl. Qed.
Lemma excluded_spec n exclude : Forall symbol exclude -> existsb (obj_sym_dec n) exclude = true <-> In n exclude.
Proof.
  intros S. rewrite existsb_exists. split.
  - intros [x [I E]]. apply obj_sym_dec_eq in E. subst. auto.
  - intros I. exists n. split; auto. apply obj_sym_dec_refl. rewrite Forall_forall in S. auto.
Qed.
Lemma entry_spec d n d' : form_is "define-values" d = true -> entry d = Some (n, d') ->
  d' = d /\ exists ns r, d = olist (sym "define-values" :: olist (n :: ns) :: r).
Proof.
  intros F. apply form_is_spec in F. destruct F as [q ->]. unfold entry.
  destruct (to_list _) as [[|h [|ids r]]|] eqn:E; try discriminate. apply to_list_spec in E.
  destruct (to_list ids) as [[|m ns]|] eqn:E2; try discriminate. apply to_list_spec in E2. subst ids.
  intros X. injection X as <- <-. split; auto. injection E as <- ->. exists ns, r. reflexivity.
Qed.
Lemma entries_kept exclude : Forall symbol exclude -> forall es ds, entries es = Some ds ->
  exists k, kept exclude es k /\ write_entries exclude ds = flat_map (fun o => write o ++ ["010"%char]) k /\ incl k (map snd ds).
Proof.
  intros S. induction es as [|e es IH]; simpl; intros ds H.
  - injection H as <-. exists []. split; [constructor|split; [auto|apply incl_refl]].
  - destruct (form_is "define-values" e) eqn:F.
    + destruct (entry e) as [[n d]|] eqn:E; [|discriminate]. destruct (entries es) as [q|]; [|discriminate]. injection H as <-.
      destruct (IH q eq_refl) as [k [K [W L]]]. destruct (entry_spec _ _ _ F E) as [-> [ns [r ->]]]. cbn [write_entries flat_map fst snd].
      assert (X := excluded_spec n exclude S). destruct (existsb (obj_sym_dec n) exclude).
      * exists k. split; [apply KeExcluded; auto; apply X; auto|]. split; auto. apply incl_tl. auto.
      * eexists. split; [apply KeDefinition; [|exact K]|].
        -- intros I. apply X in I. discriminate.
        -- cbn [flat_map map]. rewrite <- W. split; [reflexivity|]. apply incl_cons; [left; auto|apply incl_tl; auto].
    + destruct (IH ds H) as [k [K W]]. exists k. split; auto. apply KeOther; auto. intros Q. apply form_is_spec in Q. congruence.
Qed.
Lemma kept_define exclude es ds : kept exclude es ds -> forall d, In d ds -> In d es /\ exists n ns r, d = olist (sym "define-values" :: olist (n :: ns) :: r) /\ ~ In n exclude.
Proof.
  induction 1 as [|n ns r es ds N K IH|n ns r es ds I K IH|e es ds N K IH]; intros d Hd.
  - destruct Hd.
  - destruct Hd as [<-|Hd]; [split; [left; auto|]; exists n, ns, r; auto|]. destruct (IH d Hd). split; auto. right; auto.
  - destruct (IH d Hd). split; auto. right; auto.
  - destruct (IH d Hd). split; auto. right; auto.
Qed.
Lemma kept_complete exclude es ds : kept exclude es ds -> forall n ns r, In (olist (sym "define-values" :: olist (n :: ns) :: r)) es -> ~ In n exclude ->
  In (olist (sym "define-values" :: olist (n :: ns) :: r)) ds.
Proof.
  induction 1 as [|m ms q es ds N K IH|m ms q es ds I K IH|e es ds N K IH]; intros n ns r H NE.
  - destruct H.
  - destruct H as [H|H]; [left; auto|right; auto].
  - destruct H as [H|H]; auto. injection H as -> _ _. contradiction.
  - destruct H as [H|H]; auto. exfalso. apply N. subst e. eexists. reflexivity.
Qed.

(** ** The scope only matters to the check *)
Lemma in_scope_more n sc sc' : incl sc sc' -> in_scope n sc = true -> in_scope n sc' = true.
Proof. unfold in_scope. rewrite !existsb_exists. intros L [x [I E]]. eauto. Qed.
Lemma check_var_more f : forall sc sc' e, incl sc sc' -> check_var f sc e = XOk tt -> check_var f sc' e = XOk tt.
Proof.
  induction f as [|f IH]; [discriminate|]. intros sc sc' e L H.
  assert (A : forall (ns a b : list obj), incl a b -> incl (ns ++ a) (ns ++ b)) by (intros ns a b X; apply incl_app; [apply incl_appl, incl_refl|apply incl_appr; auto]).
  assert (LL : forall a b l, incl a b -> checkl (check_var f a) l = XOk tt -> checkl (check_var f b) l = XOk tt).
  { intros a b l X K. rewrite checkl_ok in *. eauto. }
  assert (F : forall a b o, incl a b -> forl o (checkl (check_var f a)) = XOk tt -> forl o (checkl (check_var f b)) = XOk tt).
  { intros a b o X K. rewrite forl_ok in *. destruct K as [l [-> K]]. eauto. }
  destruct e as [| | | | |nm|nm gi| | | |h q| | | | | | |]; cbn [check_var] in H |- *; auto.
  - destruct (in_scope (OSym nm) sc) eqn:E; [|discriminate]. rewrite (in_scope_more _ _ _ L E). auto.
  - destruct (in_scope (OGensym nm gi) sc) eqn:E; [|discriminate]. rewrite (in_scope_more _ _ _ L E). auto.
  - destruct (is_kw "lambda" h).
    { destruct q as [| | | | | | | | | |fm body| | | | | | |]; auto. destruct (formals_names fm); eauto. }
    destruct (is_kw "case-lambda" h).
    { rewrite forl_ok in *. destruct H as [l [-> K]]. exists l. split; auto. rewrite checkl_ok in *. intros c I. specialize (K c I).
      destruct c; auto. destruct (formals_names c1); eauto. }
    destruct (is_kw "let-values" h || is_kw "letrec-values" h).
    { destruct q as [| | | | | | | | | |bs body| | | | | | |]; auto. destruct (to_list bs) as [l|]; auto. destruct (bindings_parts l) as [ps|]; auto.
      cbv zeta in *. rewrite xthen_ok in *. destruct H as [H1 H2]. split; [|eauto]. destruct (is_kw "let-values" h); eauto. }
    destruct (is_kw "set!" h).
    { destruct (to_list q) as [[|y [|v r]]|]; eauto. }
    destruct (is_kw "if" h || is_kw "begin" h); eauto.
    destruct (is_kw "quote" h || is_kw "quote-syntax" h); eauto.
Qed.
Lemma check_module_more f es sc sc' : incl sc sc' -> check_module f es sc = XOk tt -> check_module f es sc' = XOk tt.
Proof.
  unfold check_module. intros L. rewrite !checkl_ok. intros H e I. specialize (H e I).
  assert (L2 : incl (List.concat (map defined_names es) ++ sc) (List.concat (map defined_names es) ++ sc')).
  { apply incl_app; [apply incl_appl, incl_refl|apply incl_appr; auto]. }
  unfold check_top in *. destruct (form_is "define-values" e); [|eapply check_var_more; eauto].
  destruct (to_list e) as [[|a [|b [|v r]]]|]; auto. eapply check_var_more; eauto.
Qed.
Lemma load_module_more f file sc sc' es : incl sc sc' -> load_module f file sc = Some es -> load_module f file sc' = Some es.
Proof.
  unfold load_module. intros L. destruct (read_forms f f file) as [os|]; auto. unfold expand_module.
  destruct (non_define _ f _ None _) as [[es1 st]| |]; try discriminate. cbn [xbind].
  destruct (mapx _ es1) as [es2| |]; try discriminate. cbn [xbind].
  destruct (check_module f es2 sc) as [[]| |] eqn:E; try discriminate. rewrite (check_module_more f es2 sc sc'); auto.
Qed.

(** ** Deciding whether a datum survives [write] and [read] *)
Definition name_ok (n : list byte) : bool :=
  forallb (fun c => negb (is_delim c) && negb (beq c xFF) && negb (beq c NUL)) n && (lenN n <? 4096)%N &&
  match n with
  | [] => false
  | c :: q => negb (is_digit c) && negb (beq c "'") && negb (beq c "#") &&
              match q with [] => negb (beq c ".") | d :: _ => negb (is_digit d) || negb (beq c "+" || beq c "-") end
  end.
Lemma name_ok_readable n : name_ok n = true -> readable_name n.
Proof.
  unfold name_ok. rewrite !andb_true_iff. intros [[F L] H]. rewrite forallb_forall in F. apply N.ltb_lt in L.
  assert (NB : forall c x, negb (beq c x) = true -> c <> x) by (intros c x E; apply beq_ne; destruct (beq c x); auto; discriminate).
  split; [|split; auto].
  - apply Forall_forall. intros c I. specialize (F c I). rewrite !andb_true_iff in F. destruct F as [[F1 F2] F3]. rewrite negb_true_iff in F1. auto.
  - destruct n as [|c q]; [discriminate|]. rewrite !andb_true_iff in H. destruct H as [[[H1 H2] H3] H4]. rewrite negb_true_iff in H1.
    split; auto. split; auto. split; [intros E; apply NB in H3; contradiction|]. destruct q as [|d q].
    + split; auto. intros ->. discriminate.
    + split; [|discriminate]. intros E. destruct (is_digit d) eqn:D; auto. destruct E; subst c; discriminate.
Qed.
Fixpoint readable_ok (o : obj) : bool :=
  match o with
  | ONull | OTrue | OFalse => true
  | OSym n => name_ok n
  | OFix z => ((- 2 ^ 63 <? z) && (z <? 2 ^ 63))%Z
  | OChar c => negb (beq c xFF)
  | OStr b => forallb (fun c => negb (existsb (beq c) [NUL; "007"; "008"; "011"; "012"; "013"; xFF]%char)) b && (lenN b <? 4096)%N
  | OPair a d => readable_ok a && readable_ok d
  | OVec l => match l with [] => false | _ :: _ => forallb readable_ok l end
  | _ => false
  end.
Lemma readable_ok_sound : forall o, readable_ok o = true -> readable write_string false false o.
Proof.
  induction o as [| | | | |n|n i|b|z|c|a d IHa IHd| |l IHl| |r l IHr IHl|x IHx|x l IHx IHl|k] using obj_ind_strong; cbn [readable_ok]; intros H; try discriminate H.
  - apply RdNull.
  - apply RdTrue.
  - apply RdFalse.
  - apply RdSym, name_ok_readable. auto.
  - apply andb_true_iff in H. destruct H as [B L]. apply N.ltb_lt in L. apply RdStr; auto. apply Forall_forall. intros c I J.
    rewrite forallb_forall in B. specialize (B c I). apply negb_true_iff in B.
    assert (X : existsb (beq c) [NUL; "007"; "008"; "011"; "012"; "013"; xFF]%char = true).
    { apply existsb_exists. exists c. split; auto. apply beq_eq. auto. }
    congruence.
  - apply andb_true_iff in H. destruct H as [H1 H2]. apply Z.ltb_lt in H1. apply Z.ltb_lt in H2. apply RdFix. auto.
  - apply RdChar. apply negb_true_iff in H. apply beq_ne in H. auto.
  - apply andb_true_iff in H. destruct H. apply RdPair; auto.
  - destruct l as [|x l]; [discriminate|]. apply RdVec. rewrite forallb_forall in H. rewrite Forall_forall in IHl. auto.
Qed.

(** Byte strings, compared *)
Fixpoint same_bytes (a b : list byte) : bool :=
  match a, b with [], [] => true | x :: p, y :: r => beq x y && same_bytes p r | _, _ => false end.
Lemma same_bytes_eq a : forall b, same_bytes a b = true -> a = b.
Proof.
  induction a as [|x a IH]; intros [|y b]; simpl; try discriminate; auto. rewrite andb_true_iff. intros [E H]. apply beq_eq in E. f_equal; auto.
Qed.
