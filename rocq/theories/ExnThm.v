(** C63: exceptions and how they are reported. *)
From Coq Require Import ZArith NArith Bool Ascii String List Arith Lia.
From Verif Require Import Base Heap HeapM Records RecordsThm Port PortThm Format FormatThm Exn.
Import ListNotations.
Local Open Scope list_scope.
Local Open Scope nat_scope.

Ltac means_tac := cbn; repeat first [apply MDisplay; [auto; fail|] | apply MWrite; [auto; fail|] | apply MText; [discriminate|] | apply MEnd].
Ltac notilde := cbn; intros H; repeat (destruct H as [H|H]; [discriminate|]); exact H.

Ltac out_tac := repeat first [apply OText | apply ODisplay | apply OEnd].
Ltac eq_tac := rewrite <- ?app_assoc; simpl; rewrite ?app_nil_r; repeat (progress (rewrite <- ?app_assoc; simpl)); reflexivity.
Ltac peprint_tac peprint := eapply peprint; [means_tac|notilde|cbn; out_tac|].

Section C63.
Variable procs : val -> bool.
Variables disp wr : heap -> val -> list byte.
Variable T : kind -> val.
Variable ep : nat.
Variable datum : heap -> val -> val * list cell.

(** * Specification *)

(** The types of exceptions: six types, five of which derive from the first *)
Record exn_types (h : heap) : Prop := mkTypes {
  t_base : descriptor h (T KExn) VFalse 2;
  t_derived : forall k, k <> KExn -> descriptor h (T k) (T KExn) (List.length (own k));
  t_distinct : forall j k, T j = T k -> j = k }.
(** The states of programs after the prelude has defined the types *)
Definition ready (s : xst) : Prop := good (xh s) /\ exn_types (xh s).
(** [exception h k v fs]: [v] is an exception of type [k]; [fs] are who, message and
    the fields of the type, followed by those of a type derived from it, if there is one *)
Definition exception (h : heap) (k : kind) (v : val) (fs : list val) : Prop := exists r, record_of h v r fs /\ subtype h r (T k).
(** Objects are kept; what is added is not yet anything. *)
Definition grows (h h' : heap) : Prop := exists q, h' = h ++ q.
(** [raises r s k fs]: the result [r] is a new exception of type [k] itself with the
    fields [fs h]; nothing else changes *)
Definition raises {A} (r : xres A) (s : xst) (k : kind) (P : heap -> list val -> Prop) : Prop :=
  exists v s' fs, r = XRaise v s' /\ record_of (xh s') v (T k) fs /\ P (xh s') fs /\ grows (xh s) (xh s') /\ ready s' /\
    (forall r' fs', ~ record_of (xh s) v r' fs') /\ (forall i, i < List.length (xps s) -> nth_error (xps s') i = nth_error (xps s) i).
(** a string with this text *)
Definition text (h : heap) (v : val) (t : list byte) : Prop := exists l b, v = VPtr l /\ nth_error h l = Some (CStr b) /\ cstr b = t.
(** a complaint about an argument of the procedure [who] *)
Definition complaint (who expected : string) (v : val) (h : heap) (fs : list val) : Prop :=
  exists m e, fs = [VSym (s2b who); m; e; v] /\ text h m (s2b "contract violation") /\ text h e (s2b expected).

(** * Lemmas *)
Lemma grows_refl h : grows h h. Proof. exists []. rewrite app_nil_r. auto. Qed.
Lemma grows_trans a b c : grows a b -> grows b c -> grows a c.
Proof. intros [q ->] [q' ->]. exists (q ++ q'). rewrite app_assoc. auto. Qed.
Lemma grows_nth h h' l c : grows h h' -> nth_error h l = Some c -> nth_error h' l = Some c.
Proof. intros [q ->] N. rewrite nth_error_app1; auto. apply nth_error_Some. congruence. Qed.
Lemma grows_kept h h' : grows h h' -> rkept h h'.
Proof. intros G l r fs N. exists fs. split; [eapply grows_nth; eauto|auto]. Qed.
Lemma text_grows h h' v t : grows h h' -> text h v t -> text h' v t.
Proof. intros G [l [b [-> [N E]]]]. exists l, b. split; auto. split; auto. eapply grows_nth; eauto. Qed.
Lemma types_kept h h' : rkept h h' -> exn_types h -> exn_types h'.
Proof. intros K [B D N]. constructor; auto; [eapply descriptor_kept; eauto|]. intros k NK. eapply descriptor_kept; eauto. Qed.
Definition base (k : kind) : nat := match k with KExn => 0 | _ => 2 end.
Lemma kind_dec (j k : kind) : {j = k} + {j <> k}. Proof. decide equality. Qed.
Lemma kind_inherited h k : exn_types h -> inherited h (T k) (base k).
Proof.
  intros [B D N]. destruct (kind_dec k KExn) as [->|NE]; [eapply InhRoot; eauto|]. replace (base k) with (0 + 2) by (destruct k; auto; contradiction).
  eapply InhChild; eauto; [|eapply InhRoot; eauto]. destruct B as [l [? [? [? [? [? [? [-> _]]]]]]]]. discriminate.
Qed.
Lemma kind_descr h k : exn_types h -> exists p, descriptor h (T k) p (List.length (own k)).
Proof. intros [B D N]. destruct (kind_dec k KExn) as [->|NE]; eauto. Qed.
Lemma xst_eta s : XS (xw s) (xps s) = s. Proof. destruct s; auto. Qed.

Lemma new_ok c s : (forall r fs, c <> CRec r fs) -> ready s ->
  exists s', new procs c s = XOk (VPtr (List.length (xh s))) s' /\ xh s' = xh s ++ [c] /\ xps s' = xps s /\ ready s'.
Proof.
  intros NC [G X]. unfold new, rec_step, rstep. assert (is_record c = false) as -> by (destruct c; auto; edestruct NC; eauto).
  eexists. split; [reflexivity|]. split; auto. split; auto. split; [apply good_snoc_other; auto|]. cbn. eapply types_kept; [apply rkept_snoc|auto].
Qed.
Lemma lit_ok b s : cstr b = b -> ready s ->
  exists s' v, lit procs b s = XOk v s' /\ text (xh s') v b /\ grows (xh s) (xh s') /\ xps s' = xps s /\ ready s'.
Proof.
  intros CB R. destruct (new_ok (CStr b) s ltac:(discriminate) R) as [s' [E [H [P R']]]]. exists s'. eexists. split; [exact E|]. split; [|split; [exists [CStr b]; auto|auto]].
  exists (List.length (xh s)), b. split; auto. split; auto. rewrite H, nth_error_app2, Nat.sub_diag by auto. auto.
Qed.
Lemma make_ok k args s : ready s -> List.length args = base k + List.length (own k) ->
  exists s', make procs T k args s = XOk (VPtr (List.length (xh s))) s' /\ xh s' = xh s ++ [CRec (T k) args] /\ xps s' = xps s /\ ready s'.
Proof.
  intros [G X] L. unfold ready, xh in *. destruct (kind_descr _ k X) as [p D]. assert (I := kind_inherited _ k X). unfold make, rec_step, rstep, record_construct.
  rewrite (proj2 (proj2 (descr_length _ _ _ _ D))). rewrite (size_total _ _ _ _ _ (fuel_of (rw_heap (xw s))) G D I) by (unfold fuel_of, xh; lia). cbn [rbind].
  rewrite L, Nat.eqb_refl. eexists. split; [reflexivity|]. split; auto. split; auto. split.
  - eapply good_snoc_record; eauto.
  - eapply types_kept; [apply rkept_snoc|auto].
Qed.
Lemma make_raises k args s0 s (P : heap -> list val -> Prop) : ready s -> List.length args = base k + List.length (own k) -> grows (xh s0) (xh s) ->
  (forall i, i < List.length (xps s0) -> nth_error (xps s) i = nth_error (xps s0) i) -> (forall h', grows (xh s) h' -> P h' args) ->
  raises (raise (make procs T k args s)) s0 k P.
Proof.
  intros R L G PS PH. destruct (make_ok k args s R L) as [s' [E [H [PP R']]]]. unfold raise. rewrite E. cbn [xbind].
  assert (G1 : grows (xh s) (xh s')) by (exists [CRec (T k) args]; auto).
  exists (VPtr (List.length (xh s))), s', args. split; auto. split; [|split; [auto|split; [eapply grows_trans; eauto|split; [auto|split]]]].
  - exists (List.length (xh s)). split; auto. split; [rewrite H, nth_error_app2, Nat.sub_diag by auto; auto|]. destruct (kind_descr _ k (proj2 R)) as [p [l [? [? [? [? [? [? [-> _]]]]]]]]]. discriminate.
  - intros r' fs' [l [E1 [N _]]]. injection E1 as <-. destruct G as [q HQ]. assert (List.length (xh s) < List.length (xh s0)) by (apply nth_error_Some; congruence).
    rewrite HQ, app_length in H0. lia.
  - intros i LI. rewrite PP. auto.
Qed.
Lemma cstr_cstr b : cstr (cstr b) = cstr b.
Proof. induction b as [|c b IH]; auto. simpl. destruct (Ascii.eqb c NUL) eqn:E; auto. simpl. rewrite E. f_equal. auto. Qed.
Lemma cstr_sym b : (forall c, In c b -> c <> NUL) -> cstr b = b.
Proof.
  induction b as [|c b IH]; intros H; auto. simpl. destruct (Ascii.eqb_spec c NUL) as [E|E]; [edestruct (H c); simpl; auto|]. f_equal. apply IH. intros. apply H. simpl; auto.
Qed.
Lemma bad_arg_ok who e v s : cstr (s2b e) = s2b e -> ready s -> raises (bad_arg procs T who e v s) s KArg (complaint who e v).
Proof.
  intros CE R. unfold bad_arg. destruct (lit_ok (s2b "contract violation") s eq_refl R) as [s1 [m [E1 [T1 [G1 [P1 R1]]]]]].
  destruct (lit_ok (s2b e) s1 CE R1) as [s2 [x [E2 [T2 [G2 [P2 R2]]]]]]. rewrite E1. cbn [xbind]. rewrite E2. cbn [xbind].
  apply (make_raises KArg [vsym who; m; x; v] s s2); auto; [eapply grows_trans; eauto|congruence|].
  intros h' G. exists m, x. split; auto. split; [|eapply text_grows; eauto]. eapply text_grows; [|exact T1]. eapply grows_trans; eauto.
Qed.

(** ** Formatted output *)
Lemma eprint_ok fmt args s t pcs o : out_port (xps s) ep t -> means (cstr fmt) pcs -> ~ In Tilde pcs -> output (disp (xh s)) (wr (xh s)) pcs args o ->
  exists ps, eprint disp wr ep fmt args s = XOk tt (XS (xw s) ps) /\ out_port ps ep (t ++ o).
Proof.
  intros OP M NT O. destruct (C49_fprintf_partial _ (disp (xh s)) (wr (xh s)) (xps s) ep t fmt pcs args o OP M NT O) as [ps [E [OP' _]]].
  destruct OP as [p [N [I _]]]. unfold fprintf in E. rewrite N, I in E. exists ps. split; auto. unfold eprint. rewrite E. auto.
Qed.
Lemma fprint_ok p fmt args s t pcs o : out_port (xps s) p t -> means (cstr fmt) pcs -> ~ In Tilde pcs -> output (disp (xh s)) (wr (xh s)) pcs args o ->
  exists ps, fprint disp wr p fmt args s = XOk tt (XS (xw s) ps) /\ out_port ps p (t ++ o) /\ (forall j, j <> p -> nth_error ps j = nth_error (xps s) j).
Proof.
  intros OP M NT O. destruct (C49_fprintf_partial _ (disp (xh s)) (wr (xh s)) (xps s) p t fmt pcs args o OP M NT O) as [ps [E [OP' J]]].
  exists ps. split; auto. unfold fprint. rewrite E. auto.
Qed.
Lemma format_ok fmt args s pcs o : means (cstr fmt) pcs -> ~ In Tilde pcs -> output (disp (xh s)) (wr (xh s)) pcs args o ->
  exists ps, format_ disp wr fmt args s = XOk (cstr o) (XS (xw s) ps) /\ (forall j, j < List.length (xps s) -> nth_error ps j = nth_error (xps s) j).
Proof.
  intros M NT O. destruct (C49_format_partial _ (disp (xh s)) (wr (xh s)) (xps s) fmt pcs args o M NT O) as [ps [E J]]. exists ps. split; auto. unfold format_. rewrite E. auto.
Qed.

Definition sym_val (v : val) : Prop := (exists n, v = VSym n) \/ exists n i, v = VGensym n i.
Definition str_val (h : heap) (v : val) : Prop := exists t, text h v t.
(** #f or a symbol: what may be given as the name of a procedure *)
Definition named (v : val) : Prop := v = VFalse \/ sym_val v.
Lemma symbolv_spec v : symbolv v = true <-> sym_val v.
Proof. unfold sym_val. destruct v; simpl; split; intros H; try discriminate; eauto; destruct H as [[n H]|[n [i H]]]; discriminate. Qed.
Lemma who_ok_spec v : who_ok v = true <-> named v.
Proof.
  unfold who_ok, named. destruct (truthy v) eqn:E.
  - apply truthy_spec in E. rewrite symbolv_spec. intuition.
  - assert (v = VFalse) by (destruct v; auto; discriminate). split; auto.
Qed.
Lemma string_at_spec h v t : text h v t <-> exists b, string_at h v = Some b /\ cstr b = t.
Proof.
  unfold text, string_at. split.
  - intros [l [b [-> [N E]]]]. rewrite N. eauto.
  - intros [b [H E]]. destruct v; try discriminate. destruct (nth_error h l) as [[]|] eqn:N; try discriminate. injection H as ->. eauto 6.
Qed.
Lemma stringv_spec h v : stringv h v = true <-> str_val h v.
Proof.
  unfold stringv, str_val. split.
  - destruct (string_at h v) as [b|] eqn:E; [|discriminate]. intros _. exists (cstr b). apply string_at_spec. eauto.
  - intros [t H]. apply string_at_spec in H as [b [-> _]]. auto.
Qed.
Lemma str_dec h v : {str_val h v} + {~ str_val h v}.
Proof. destruct (stringv h v) eqn:E; [left; apply stringv_spec; auto|right; intros H; apply stringv_spec in H; congruence]. Qed.

(** ** raise-argument-error *)

(** Raises an argument exception with the given name, expectation and value *)
Theorem C63_argument_error who expected v s : ready s -> named who -> str_val (xh s) expected ->
  raises (raise_argument_error procs T who expected v s) s KArg
    (fun h fs => exists m, fs = [who; m; expected; v] /\ text h m (s2b "contract violation")).
Proof.
  intros R W E. unfold raise_argument_error. apply who_ok_spec in W. apply stringv_spec in E. rewrite W, E.
  destruct (lit_ok (s2b "contract violation") s eq_refl R) as [s1 [m [E1 [T1 [G1 [P1 R1]]]]]]. rewrite E1. cbn [xbind].
  apply (make_raises KArg [who; m; expected; v] s s1); auto; [congruence|]. intros h' G. exists m. split; auto. eapply text_grows; eauto.
Qed.
Theorem C63_argument_error_refused who expected v s : ready s ->
  (~ named who -> raises (raise_argument_error procs T who expected v s) s KArg (complaint "raise-argument-error" "symbol? or #f" who)) /\
  (named who -> ~ str_val (xh s) expected -> raises (raise_argument_error procs T who expected v s) s KArg (complaint "raise-argument-error" "string?" expected)).
Proof.
  intros R. unfold raise_argument_error. split.
  - intros W. destruct (who_ok who) eqn:E; [apply who_ok_spec in E; contradiction|]. apply bad_arg_ok; auto.
  - intros W E. apply who_ok_spec in W. rewrite W. destruct (stringv (xh s) expected) eqn:X; [apply stringv_spec in X; contradiction|]. apply bad_arg_ok; auto.
Qed.

(** ** error and errorf *)

(** The message of an error with arguments *)
Definition error_text (h : heap) (msg : val) (args : list val) : list byte :=
  disp h msg ++ [LF] ++
  match args with
  | [x] => s2b "  argument: " ++ wr h x
  | _ => s2b "  arguments...:" ++ flat_map (fun x => [LF] ++ s2b "   " ++ wr h x) args
  end.
Lemma out_new ps : exists ps', pstep ps POpenOut = (ps', PPort (List.length ps)) /\ out_port ps' (List.length ps) [] /\ (forall j, j < List.length ps -> nth_error ps' j = nth_error ps j).
Proof.
  eexists. split; [reflexivity|]. split; [|intros j L; apply nth_error_app1; auto]. eexists. split; [rewrite nth_error_app2, Nat.sub_diag by auto; reflexivity|]. cbn. auto.
Qed.
Lemma out_get ps p t : out_port ps p t -> exists ps', pstep ps (PGet p) = (ps', PStr (cstr t)) /\ (forall j, j <> p -> nth_error ps' j = nth_error ps j).
Proof.
  intros [q [N [P1 [P2 [L E]]]]]. cbn [pstep]. unfold on_port. rewrite N, P1, P2. cbn [Bool.eqb]. destruct (Nat.eqb_spec (pos (strm q)) 0) as [Z|Z].
  - rewrite Z in E. cbn in E. subst t. exists ps. auto.
  - unfold fread, to_start. cbn [pos data]. rewrite Nat.sub_0_r, (proj2 (Nat.leb_le _ _) L). cbn [skipn]. rewrite E. eexists. split; [reflexivity|].
    intros j NE. unfold set_stream. apply HashtableProofs.nth_upd_ne. auto.
Qed.
Lemma fprint_all_ok p args : forall s t, out_port (xps s) p t ->
  exists ps, fprint_all disp wr p (nl ++ s2b "   ~s") args s = XOk tt (XS (xw s) ps) /\
    out_port ps p (t ++ flat_map (fun x => [LF] ++ s2b "   " ++ wr (xh s) x) args) /\ (forall j, j <> p -> nth_error ps j = nth_error (xps s) j).
Proof.
  induction args as [|x args IH]; intros s t OP; cbn [fprint_all flat_map].
  - exists (xps s). rewrite app_nil_r, xst_eta. auto.
  - destruct (fprint_ok p (nl ++ s2b "   ~s") [x] s t [Text LF; Text " "; Text " "; Text " "; Write] ([LF] ++ s2b "   " ++ wr (xh s) x) OP) as [ps [E [OP1 J1]]].
    + means_tac.
    + notilde.
    + cbn. repeat apply OText. rewrite <- (app_nil_r (wr (xh s) x)) at 1. apply OWrite. apply OEnd.
    + rewrite E. cbn [xbind]. destruct (IH (XS (xw s) ps) _ OP1) as [ps2 [E2 [OP2 J2]]]. exists ps2. split; auto. cbn [xps xw] in *. unfold xh in OP2. cbn [xw] in OP2. fold (xh s) in OP2.
      rewrite <- app_assoc in OP2. split; auto. intros j NE. rewrite J2; auto.
Qed.
Lemma error_message_ok msg args s : ready s -> args <> [] ->
  exists m s', error_message procs disp wr msg args s = XOk m s' /\ text (xh s') m (cstr (error_text (xh s) msg args)) /\ grows (xh s) (xh s') /\ ready s' /\
    (forall j, j < List.length (xps s) -> nth_error (xps s') j = nth_error (xps s) j).
Proof.
  intros R NE. unfold error_message. destruct (out_new (xps s)) as [ps0 [E0 [OP0 J0]]]. rewrite E0. set (p := List.length (xps s)) in *.
  destruct (fprint_ok p (s2b "~a" ++ nl) [msg] (XS (xw s) ps0) [] [Display; Text LF] (disp (xh s) msg ++ [LF]) OP0) as [ps1 [E1 [OP1 J1]]].
  { means_tac. } { notilde. } { apply ODisplay. apply OText. apply OEnd. }
  rewrite E1. cbn [xbind xw]. cbn [app] in OP1.
  assert (X : exists ps2, match args with
                  | [x] => fprint disp wr p (s2b "  argument: ~s") [x] (XS (xw s) ps1)
                  | _ => xbind (fprint disp wr p (s2b "  arguments...:") [] (XS (xw s) ps1)) (fun _ s0 => fprint_all disp wr p (nl ++ s2b "   ~s") args s0)
                  end = XOk tt (XS (xw s) ps2) /\ out_port ps2 p (error_text (xh s) msg args) /\ (forall j, j <> p -> nth_error ps2 j = nth_error ps1 j)).
  { assert (MANY : exists ps2, xbind (fprint disp wr p (s2b "  arguments...:") [] (XS (xw s) ps1)) (fun _ s0 => fprint_all disp wr p (nl ++ s2b "   ~s") args s0) = XOk tt (XS (xw s) ps2) /\
        out_port ps2 p (disp (xh s) msg ++ [LF] ++ s2b "  arguments...:" ++ flat_map (fun x => [LF] ++ s2b "   " ++ wr (xh s) x) args) /\ (forall j, j <> p -> nth_error ps2 j = nth_error ps1 j)).
    { destruct (fprint_ok p (s2b "  arguments...:") [] (XS (xw s) ps1) _ (map Text (s2b "  arguments...:")) (s2b "  arguments...:") OP1) as [ps2 [E2 [OP2 J2]]].
      { means_tac. } { notilde. } { cbn. repeat apply OText. apply OEnd. }
      rewrite E2. cbn [xbind]. destruct (fprint_all_ok p args (XS (xw s) ps2) _ OP2) as [ps3 [E3 [OP3 J3]]]. exists ps3. split; [exact E3|]. rewrite <- !app_assoc in OP3. split; [exact OP3|].
      intros j NJ. rewrite J3 by auto. cbn [xps]. apply J2. auto. }
    destruct args as [|x [|y q]]; [contradiction| |exact MANY].
    destruct (fprint_ok p (s2b "  argument: ~s") [x] (XS (xw s) ps1) _ (map Text (s2b "  argument: ") ++ [Write]) (s2b "  argument: " ++ wr (xh s) x) OP1) as [ps2 [E2 [OP2 J2]]].
    { means_tac. } { notilde. } { cbn. repeat apply OText. rewrite <- (app_nil_r (wr _ x)). apply OWrite. apply OEnd. }
    exists ps2. split; auto. rewrite <- !app_assoc in OP2. split; auto. }
  destruct X as [ps2 [E2 [OP2 J2]]]. rewrite E2. cbn [xbind xps]. destruct (out_get _ _ _ OP2) as [ps3 [E3 J3]]. rewrite E3.
  assert (RS : ready (XS (xw s) ps3)) by exact R. destruct (new_ok (CStr (cstr (error_text (xh s) msg args))) (XS (xw s) ps3) ltac:(discriminate) RS) as [s' [E4 [H4 [P4 R4]]]].
  cbn [xw]. eexists _, s'. split; [exact E4|]. split; [|split; [eexists; exact H4|split; [auto|]]].
  - eexists _, _. split; [reflexivity|]. split; [rewrite H4, nth_error_app2, Nat.sub_diag by auto; reflexivity|]. apply cstr_cstr.
  - intros j L. rewrite P4. cbn [xps]. rewrite J3, J2, J1 by (unfold p; lia). cbn [xps]. auto.
Qed.
Theorem C63_error who msg args s : ready s -> named who \/ str_val (xh s) who -> str_val (xh s) msg ->
  raises (error procs disp wr T who msg args s) s KExn
    (fun h fs => exists m, fs = [who; m] /\ (args = [] -> m = msg) /\ (args <> [] -> text h m (cstr (error_text (xh s) msg args)))).
Proof.
  intros R W M. unfold error.
  assert (X : (if truthy who then symbolv who || stringv (xh s) who else true) = true).
  { destruct (truthy who) eqn:TW; auto. apply orb_true_iff. destruct W as [W|W]; [left|right; apply stringv_spec; auto]. apply who_ok_spec in W. unfold who_ok in W. rewrite TW in W. auto. }
  rewrite X. apply stringv_spec in M. rewrite M. destruct args as [|a q].
  - apply (make_raises KExn [who; msg] s s); auto using grows_refl. intros h' G. exists msg. split; auto. split; auto. intros N. contradiction.
  - destruct (error_message_ok msg (a :: q) s R ltac:(discriminate)) as [m [s1 [E1 [T1 [G1 [R1 J1]]]]]]. rewrite E1. cbn [xbind].
    apply (make_raises KExn [who; m] s s1); auto. intros h' G. exists m. split; auto. split; [discriminate|]. intros _. eapply text_grows; eauto.
Qed.
Theorem C63_error_refused who msg args s : ready s ->
  (~ named who -> ~ str_val (xh s) who -> raises (error procs disp wr T who msg args s) s KArg (complaint "error" "symbol? or string? or #f" who)) /\
  (named who \/ str_val (xh s) who -> ~ str_val (xh s) msg -> raises (error procs disp wr T who msg args s) s KArg (complaint "error" "string?" msg)).
Proof.
  intros R. unfold error. split.
  - intros W1 W2. assert (X : (if truthy who then symbolv who || stringv (xh s) who else true) = false).
    { destruct (truthy who) eqn:TW; [|exfalso; apply W1; left; destruct who; auto; discriminate]. apply orb_false_iff. split.
      - destruct (symbolv who) eqn:E; auto. exfalso. apply W1. right. apply symbolv_spec. auto.
      - destruct (stringv (xh s) who) eqn:E; auto. exfalso. apply W2. apply stringv_spec. auto. }
    rewrite X. apply bad_arg_ok; auto.
  - intros W M. assert (X : (if truthy who then symbolv who || stringv (xh s) who else true) = true).
    { destruct (truthy who) eqn:TW; auto. apply orb_true_iff. destruct W as [W|W]; [left|right; apply stringv_spec; auto]. apply who_ok_spec in W. unfold who_ok in W. rewrite TW in W. auto. }
    rewrite X. destruct (stringv (xh s) msg) eqn:E; [apply stringv_spec in E; contradiction|]. apply bad_arg_ok; auto.
Qed.

(** errorf: the message is what format makes *)
Theorem C63_errorf who fmt f args s pcs o : ready s -> named who -> text (xh s) fmt f -> means f pcs -> ~ In Tilde pcs -> output (disp (xh s)) (wr (xh s)) pcs args o ->
  raises (errorf procs disp wr T who fmt args s) s KExn (fun h fs => exists m, fs = [who; m] /\ text h m (cstr o)).
Proof.
  intros R W F M NT O. unfold errorf. apply string_at_spec in F as [b [F <-]]. assert (W' := W). apply who_ok_spec in W. rewrite W, F.
  destruct (format_ok b args s pcs o M NT O) as [ps [E J]]. rewrite E. cbn [xbind]. assert (RS : ready (XS (xw s) ps)) by exact R.
  destruct (new_ok (CStr (cstr o)) (XS (xw s) ps) ltac:(discriminate) RS) as [s1 [E1 [H1 [P1 R1]]]]. rewrite E1. cbn [xbind].
  assert (TX : text (xh s1) (VPtr (List.length (xh (XS (xw s) ps)))) (cstr o)).
  { eexists _, _. split; [reflexivity|]. split; [rewrite H1, nth_error_app2, Nat.sub_diag by auto; reflexivity|]. apply cstr_cstr. }
  destruct (C63_error who (VPtr (List.length (xh (XS (xw s) ps)))) [] s1 R1 (or_introl W') (ex_intro _ _ TX)) as [v [s' [fs [E2 [RO [[m [EF [EM _]]] [G [R' [NW JP]]]]]]]]].
  exists v, s', fs. assert (G0 : grows (xh s) (xh s1)) by (eexists; exact H1). split; auto. split; auto. split; [exists m; rewrite (EM eq_refl) in *; split; auto; eapply text_grows; eauto|].
  split; [eapply grows_trans; eauto|]. split; auto. split.
  - intros r' fs' RO'. apply (NW r' fs'). destruct RO' as [l [-> [N NB]]]. exists l. split; auto. split; auto. eapply grows_nth; eauto.
  - intros i L. rewrite P1 in JP. cbn [xps] in JP. rewrite JP; [auto|]. destruct (Nat.lt_ge_cases i (List.length ps)); auto. exfalso.
    assert (N0 := J i L). rewrite (proj2 (nth_error_None ps i)) in N0 by auto. symmetry in N0. apply nth_error_None in N0. lia.
Qed.
Theorem C63_errorf_refused who fmt args s : ready s ->
  (~ named who -> raises (errorf procs disp wr T who fmt args s) s KArg (complaint "errorf" "symbol? or #f" who)) /\
  (named who -> ~ str_val (xh s) fmt -> raises (errorf procs disp wr T who fmt args s) s KArg (complaint "errorf" "string?" fmt)).
Proof.
  intros R. unfold errorf. split.
  - intros W. destruct (who_ok who) eqn:E; [apply who_ok_spec in E; contradiction|]. apply bad_arg_ok; auto.
  - intros W E. apply who_ok_spec in W. rewrite W. destruct (string_at (xh s) fmt) as [b|] eqn:X; [exfalso; apply E; exists (cstr b); apply string_at_spec; eauto|]. apply bad_arg_ok; auto.
Qed.

(** ** raise-arity-error *)

(** The values that describe arities: a count, or a list of increasing counts of which
    the last may mean that more are accepted (the list ends in #f) *)
Inductive counts (h : heap) : val -> list Z -> bool -> Prop :=
| CEnd l n : nth_error h l = Some (CPair (VFix n) VNull) -> counts h (VPtr l) [n] false
| CMore l n : nth_error h l = Some (CPair (VFix n) VFalse) -> counts h (VPtr l) [n] true
| CNext l n d ns b : nth_error h l = Some (CPair (VFix n) d) -> counts h d ns b -> counts h (VPtr l) (n :: ns) b.
Fixpoint increasing (p : Z) (ns : list Z) : Prop := match ns with [] => True | n :: r => (p < n)%Z /\ increasing n r end.
Definition arity_val (h : heap) (v : val) : Prop :=
  (exists n, v = VFix n /\ (0 <= n)%Z) \/ exists n ns b, counts h v (n :: ns) b /\ (0 <= n)%Z /\ increasing n ns.
Lemma increasing_weak p q ns : (p <= q)%Z -> increasing q ns -> increasing p ns.
Proof. destruct ns; simpl; auto. intros H [A B]. split; auto. lia. Qed.
(** the cells of the list *)
Inductive cells (h : heap) : val -> list nat -> Prop :=
| CellsEnd v : pairv h v = None -> cells h v []
| CellsPair l a d ls : nth_error h l = Some (CPair a d) -> cells h d ls -> cells h (VPtr l) (l :: ls).
Definition arity_tail_val (h : heap) (p : Z) (x : val) : Prop :=
  x = VNull \/ x = VFalse \/ exists ns b, counts h x ns b /\ increasing p ns.
Lemma natv_spec v n : natv v = Some n <-> v = VFix n /\ (0 <= n)%Z.
Proof.
  unfold natv. destruct v; try (split; [discriminate|intros [X _]; discriminate]). destruct (Z.leb_spec 0 z); split; try discriminate.
  - intros X. injection X as ->. auto.
  - intros [X _]. congruence.
  - intros [X Y]. injection X as ->. lia.
Qed.
Lemma pairv_spec h v a d : pairv h v = Some (a, d) <-> exists l, v = VPtr l /\ nth_error h l = Some (CPair a d).
Proof.
  unfold pairv. split.
  - destruct v; try discriminate. destruct (nth_error h l) as [[]|] eqn:N; try discriminate. intros X. injection X as -> ->. eauto.
  - intros [l [-> ->]]. auto.
Qed.
(** The check of the arity ends: along the list the counts increase, so no pair is met
    twice. *)
Lemma loop_sound f h : forall x p, (0 <= p)%Z -> arity_loop f h x p = Some true -> arity_tail_val h p x.
Proof.
  induction f as [|f IH]; intros x p P H; [discriminate|]. cbn [arity_loop] in H. unfold arity_tail_val.
  destruct (pairv h x) as [[a d]|] eqn:PV.
  - apply pairv_spec in PV as [l [-> N]]. destruct (natv a) as [n|] eqn:NA; [|discriminate]. apply natv_spec in NA as [-> N0].
    destruct (Z.ltb_spec p n); [|discriminate]. right. right. destruct (IH d n N0 H) as [->|[->|[ns [b [C I]]]]].
    + exists [n], false. split; [apply CEnd; auto|simpl; auto].
    + exists [n], true. split; [apply CMore; auto|simpl; auto].
    + exists (n :: ns), b. split; [eapply CNext; eauto|simpl; auto].
  - destruct x; try discriminate; auto.
Qed.
Lemma loop_complete h : forall f x p b, arity_loop f h x p = Some b -> arity_tail_val h p x -> (0 <= p)%Z -> b = true.
Proof.
  induction f as [|f IH]; intros x p b H V P; [discriminate|]. cbn [arity_loop] in H. destruct V as [->|[->|[ns [o [C I]]]]]; [congruence|congruence|].
  destruct C as [l n N|l n N|l n d ns o N C]; cbn [pairv] in H; rewrite N in H; destruct I as [I1 I2]; unfold natv in H;
    (destruct (Z.leb_spec 0 n); [|lia]); (destruct (Z.ltb_spec p n); [|lia]).
  - eapply IH; [exact H|left; auto|lia].
  - eapply IH; [exact H|right; left; auto|lia].
  - eapply IH; [exact H| |lia]. right. right. eauto.
Qed.
(** cells met so far hold counts up to [p] *)
Definition met (h : heap) (p : Z) (seen : list nat) : Prop := NoDup seen /\ forall l, In l seen -> exists n d, nth_error h l = Some (CPair (VFix n) d) /\ (n <= p)%Z.
Lemma met_bound h p seen : met h p seen -> List.length seen <= List.length h.
Proof.
  intros [ND M]. assert (I : incl seen (seq 0 (List.length h))).
  { intros l L. destruct (M l L) as [n [d [N _]]]. apply in_seq. assert (l < List.length h) by (apply nth_error_Some; congruence). lia. }
  apply NoDup_incl_length in I; auto. rewrite seq_length in I. auto.
Qed.
Lemma loop_total h : forall f x p seen, (0 <= p)%Z -> met h p seen -> S (List.length h) <= f + List.length seen -> exists b, arity_loop f h x p = Some b.
Proof.
  induction f as [|f IH]; intros x p seen P M F; [apply met_bound in M; lia|]. cbn [arity_loop].
  assert (X : exists b, match pairv h x with
             | Some (a, d) => match natv a with Some n => if (p <? n)%Z then arity_loop f h d n else Some false | None => Some false end
             | None => Some false end = Some b).
  { destruct (pairv h x) as [[a d]|] eqn:PV; eauto. apply pairv_spec in PV as [l [-> N]]. destruct (natv a) as [n|] eqn:NA; eauto. apply natv_spec in NA as [-> N0].
    destruct (Z.ltb_spec p n) as [L|L]; eauto. apply (IH d n (l :: seen)); auto; [|simpl; lia]. destruct M as [ND M]. split.
    - constructor; auto. intros I. destruct (M l I) as [n' [d' [N' L']]]. rewrite N in N'. injection N' as <- _. lia.
    - intros l' [<-|I]; [exists n, d; split; auto; lia|]. destruct (M l' I) as [n' [d' [N' L']]]. exists n', d'. split; auto. lia. }
  destruct x; eauto.
Qed.
Lemma arityp_ok h v : exists b, arityp (S (S (List.length h))) h v = Some b /\ (b = true <-> arity_val h v).
Proof.
  unfold arityp, arity_val. destruct (natv v) as [n|] eqn:NV.
  - apply natv_spec in NV as [-> N0]. exists true. split; auto. split; auto. intros _. left. eauto.
  - assert (NF : ~ exists n, v = VFix n /\ (0 <= n)%Z). { intros [n [-> N0]]. assert (natv (VFix n) = Some n) by (apply natv_spec; auto). congruence. }
    destruct (pairv h v) as [[a d]|] eqn:PV.
    + apply pairv_spec in PV as [l [-> N]]. destruct (natv a) as [n|] eqn:NA.
      * apply natv_spec in NA as [-> N0]. destruct (loop_total h (S (S (List.length h))) d n [] N0) as [b E]; [split; [constructor|intros l0 []]|lia|]. exists b. split; auto. split.
        -- intros ->. right. destruct (loop_sound _ _ _ _ N0 E) as [->|[->|[ns [b [C I]]]]].
           ++ exists n, [], false. split; [apply CEnd; auto|split; auto; exact Logic.I].
           ++ exists n, [], true. split; [apply CMore; auto|split; auto; exact Logic.I].
           ++ exists n, ns, b. split; [eapply CNext; eauto|auto].
        -- intros [X|[n' [ns [o [C [_ I]]]]]]; [contradiction|]. eapply loop_complete; eauto. inversion C as [l0 n0 N1 E1 E2|l0 n0 N1 E1 E2|l0 n0 d0 ns0 b0 N1 C1 E1 E2]; subst;
             rewrite N in N1; injection N1 as X1 X2; subst; [left; auto|right; left; auto|right; right; eauto].
      * exists false. split; auto. split; [discriminate|]. intros [X|[n' [ns [o [C [N0 I]]]]]]; [contradiction|].
        assert (natv (VFix n') = Some n') by (apply natv_spec; auto). inversion C; subst; congruence.
    + exists false. split; auto. split; [discriminate|]. intros [X|[n' [ns [o [C _]]]]]; [contradiction|]. destruct C as [l n N|l n N|l n d ns' b' N C]; cbn [pairv] in PV; rewrite N in PV; discriminate.
Qed.
Theorem C63_arity_error who arity cnt s : ready s -> named who -> arity_val (xh s) arity ->
  raises (raise_arity_error procs T who arity cnt s) s KArity (fun h fs => exists m, fs = [who; m; arity; cnt] /\ text h m (s2b "arity mismatch")).
Proof.
  intros R W A. unfold raise_arity_error. apply who_ok_spec in W. rewrite W. destruct (arityp_ok (xh s) arity) as [b [E B]]. rewrite E. rewrite (proj2 B A).
  destruct (lit_ok (s2b "arity mismatch") s eq_refl R) as [s1 [m [E1 [T1 [G1 [P1 R1]]]]]]. rewrite E1. cbn [xbind].
  apply (make_raises KArity [who; m; arity; cnt] s s1); auto; [congruence|]. intros h' G. exists m. split; auto. eapply text_grows; eauto.
Qed.
Theorem C63_arity_error_refused who arity cnt s : ready s ->
  (~ named who -> raises (raise_arity_error procs T who arity cnt s) s KArg (complaint "raise-arity-error" "symbol? or #f" who)) /\
  (named who -> ~ arity_val (xh s) arity -> raises (raise_arity_error procs T who arity cnt s) s KArg (complaint "raise-arity-error" "procedure-arity?" arity)).
Proof.
  intros R. unfold raise_arity_error. split.
  - intros W. destruct (who_ok who) eqn:E; [apply who_ok_spec in E; contradiction|]. apply bad_arg_ok; auto.
  - intros W A. apply who_ok_spec in W. rewrite W. destruct (arityp_ok (xh s) arity) as [b [E B]]. rewrite E. destruct b; [exfalso; apply A, B; auto|]. apply bad_arg_ok; auto.
Qed.

(** ** raise-range-error, raise-missing-error and raise-syntax-error *)

Definition int_val (v : val) : Prop := exists n, v = VFix n.
Lemma intv_spec v : intv v = true <-> int_val v.
Proof. unfold int_val. destruct v; simpl; split; intros H; try discriminate; eauto; destruct H as [n H]; discriminate. Qed.
Lemma format_one pre post x s pcs : means (cstr (pre ++ s2b "~a" ++ post)) pcs -> pcs = map Text pre ++ Display :: map Text post -> 
  ready s -> exists m s', xbind (format_ disp wr (pre ++ s2b "~a" ++ post) [x] s) (fun t s0 => new procs (CStr t) s0) = XOk m s' /\
    text (xh s') m (cstr (pre ++ disp (xh s) x ++ post)) /\ grows (xh s) (xh s') /\ ready s' /\ (forall j, j < List.length (xps s) -> nth_error (xps s') j = nth_error (xps s) j).
Proof.
  intros M -> R. assert (TX : forall q (xs : list val) o ps, output (disp (xh s)) (wr (xh s)) ps xs o -> output (disp (xh s)) (wr (xh s)) (map Text q ++ ps) xs (q ++ o)).
  { induction q; intros; simpl; auto. apply OText. auto. }
  destruct (format_ok (pre ++ s2b "~a" ++ post) [x] s _ (pre ++ disp (xh s) x ++ post) M) as [ps [E J]].
  - intros H. apply in_app_or in H as [H|[H|H]]; try discriminate; apply in_map_iff in H as [? [H _]]; discriminate.
  - apply TX, ODisplay. rewrite <- (app_nil_r (map Text post)). rewrite <- (app_nil_r post) at 2. apply TX, OEnd.
  - rewrite E. cbn [xbind]. assert (RS : ready (XS (xw s) ps)) by exact R.
    destruct (new_ok (CStr (cstr (pre ++ disp (xh s) x ++ post))) (XS (xw s) ps) ltac:(discriminate) RS) as [s1 [E1 [H1 [P1 R1]]]]. eexists _, s1. split; [exact E1|]. split; [|split; [eexists; exact H1|]].
    + eexists _, _. split; [reflexivity|]. split; [rewrite H1, nth_error_app2, Nat.sub_diag by auto; reflexivity|]. apply cstr_cstr.
    + split; auto. intros j L. rewrite P1. apply J. auto.
Qed.

(** The message tells what the index is an index of, if that is told. *)
Theorem C63_range_error who v descr d lower upper index s : ready s -> named who -> text (xh s) descr d -> int_val lower -> int_val upper -> int_val index ->
  raises (raise_range_error procs disp wr T who v descr lower upper index s) s KRange
    (fun h fs => exists m, fs = [who; m; v; descr; lower; upper; index] /\
       text h m (match d with [] => s2b "index out of bounds" | _ => cstr (disp (xh s) descr ++ s2b " index out of bounds") end)).
Proof.
  intros R W D IL IU II. unfold raise_range_error. apply who_ok_spec in W. apply string_at_spec in D as [b [D <-]]. apply intv_spec in IL, IU, II. rewrite W, D, IL, IU, II. unfold shown.
  destruct (cstr b) as [|c q].
  - destruct (lit_ok (s2b "index out of bounds") s eq_refl R) as [s1 [m [E1 [T1 [G1 [P1 R1]]]]]]. rewrite E1. cbn [xbind].
    apply (make_raises KRange [who; m; v; descr; lower; upper; index] s s1); auto; [congruence|]. intros h' G. exists m. split; auto. eapply text_grows; eauto.
  - destruct (format_one [] (s2b " index out of bounds") descr s _ ltac:(means_tac) eq_refl R) as [m [s1 [E1 [T1 [G1 [R1 J1]]]]]]. cbn [app] in E1. change (s2b "~a index out of bounds") with (s2b "~a" ++ s2b " index out of bounds"). rewrite E1. cbn [xbind].
    apply (make_raises KRange [who; m; v; descr; lower; upper; index] s s1); auto. intros h' G. exists m. split; auto. eapply text_grows; eauto.
Qed.
Theorem C63_range_error_refused who v descr lower upper index s : ready s ->
  let r := raise_range_error procs disp wr T who v descr lower upper index s in
  (~ named who -> raises r s KArg (complaint "raise-range-error" "symbol? or #f" who)) /\
  (named who -> ~ str_val (xh s) descr -> raises r s KArg (complaint "raise-range-error" "string?" descr)) /\
  (named who -> str_val (xh s) descr -> ~ int_val lower -> raises r s KArg (complaint "raise-range-error" "integer?" lower)) /\
  (named who -> str_val (xh s) descr -> int_val lower -> ~ int_val upper -> raises r s KArg (complaint "raise-range-error" "integer?" upper)) /\
  (named who -> str_val (xh s) descr -> int_val lower -> int_val upper -> ~ int_val index -> raises r s KArg (complaint "raise-range-error" "integer?" index)).
Proof.
  intros R r. unfold r, raise_range_error. clear r. assert (ST : str_val (xh s) descr -> exists b, string_at (xh s) descr = Some b).
  { intros [t X]. apply string_at_spec in X as [b [X _]]. eauto. }
  assert (NI : forall x, ~ int_val x -> intv x = false) by (intros x N; destruct (intv x) eqn:E; auto; apply intv_spec in E; contradiction).
  split; [|split; [|split; [|split]]].
  - intros W. destruct (who_ok who) eqn:E; [apply who_ok_spec in E; contradiction|]. apply bad_arg_ok; auto.
  - intros W E. apply who_ok_spec in W. rewrite W. destruct (string_at (xh s) descr) as [b|] eqn:X; [exfalso; apply E; exists (cstr b); apply string_at_spec; eauto|]. apply bad_arg_ok; auto.
  - intros W E L. apply who_ok_spec in W. destruct (ST E) as [b SB]. rewrite W, SB, (NI _ L). apply bad_arg_ok; auto.
  - intros W E L U. apply who_ok_spec in W. destruct (ST E) as [b SB]. apply intv_spec in L. rewrite W, SB, L, (NI _ U). apply bad_arg_ok; auto.
  - intros W E L U X. apply who_ok_spec in W. destruct (ST E) as [b SB]. apply intv_spec in L, U. rewrite W, SB, L, U, (NI _ X). apply bad_arg_ok; auto.
Qed.
Theorem C63_missing_error who descr x k s : ready s -> named who -> str_val (xh s) descr ->
  raises (raise_missing_error procs disp wr T who descr x k s) s KMissing
    (fun h fs => exists m, fs = [who; m; descr; x; k] /\ text h m (cstr (disp (xh s) descr ++ s2b " not found"))).
Proof.
  intros R W D. unfold raise_missing_error. apply who_ok_spec in W. apply stringv_spec in D. rewrite W, D.
  destruct (format_one [] (s2b " not found") descr s _ ltac:(means_tac) eq_refl R) as [m [s1 [E1 [T1 [G1 [R1 J1]]]]]]. cbn [app] in E1.
  assert (E : (xbind (format_ disp wr (s2b "~a not found") [descr] s) (fun t s0 => xbind (new procs (CStr t) s0) (fun m s1 => make procs T KMissing [who; m; descr; x; k] s1))) =
              make procs T KMissing [who; m; descr; x; k] s1).
  { change (s2b "~a not found") with (s2b "~a" ++ s2b " not found"). destruct (format_ disp wr (s2b "~a" ++ s2b " not found") [descr] s); cbn [xbind] in *; try discriminate. rewrite E1. auto. }
  rewrite E. apply (make_raises KMissing [who; m; descr; x; k] s s1); auto. intros h' G. exists m. split; auto. eapply text_grows; eauto.
Qed.
(** A wrong argument of raise-missing-error is reported ... *)
Theorem C63_missing_error_refused who descr x k s : ready s -> ~ (named who /\ str_val (xh s) descr) ->
  raises (raise_missing_error procs disp wr T who descr x k s) s KArg (fun h fs => exists w e a, complaint w e a h fs /\ (a = who \/ a = descr)).
Proof.
  intros R NB. assert (WK : forall r w e a, (a = who \/ a = descr) -> raises r s KArg (complaint w e a) -> raises (A:=val) r s KArg (fun h fs => exists w e a, complaint w e a h fs /\ (a = who \/ a = descr))).
  { intros r w e a AA [v [s' [fs [E [RO [C Q]]]]]]. exists v, s', fs. split; auto. split; auto. split; auto. exists w, e, a. auto. }
  unfold raise_missing_error. destruct (who_ok who) eqn:W.
  - destruct (stringv (xh s) descr) eqn:D; [exfalso; apply NB; split; [apply who_ok_spec; auto|apply stringv_spec; auto]|]. eapply WK; [|apply bad_arg_ok; auto]. auto.
  - eapply WK; [|apply bad_arg_ok; auto]. auto.
Qed.
(** ... but not as an argument of that procedure. *)
Theorem C63_missing_error_name_refuted who descr x k s e a : ready s -> ~ (named who /\ str_val (xh s) descr) ->
  ~ raises (raise_missing_error procs disp wr T who descr x k s) s KArg (complaint "raise-missing-error" e a).
Proof.
  intros R NB [v [s' [fs [E [RO [[m [x' [-> _]]] _]]]]]].
  assert (B : forall e a, raises (bad_arg procs T "raise-argument-error" e a s) s KArg (complaint "raise-argument-error" e a) -> bad_arg procs T "raise-argument-error" e a s <> XRaise v s').
  { intros e0 a0 [v0 [s0 [fs0 [E0 [RO0 [[m0 [x0 [-> _]]] _]]]]]] E1. rewrite E0 in E1. injection E1 as -> ->. destruct RO as [l [-> [N _]]], RO0 as [l0 [EQ [N0 _]]]. injection EQ as <-.
    rewrite N in N0. discriminate. }
  unfold raise_missing_error in E. destruct (who_ok who) eqn:W.
  - destruct (stringv (xh s) descr) eqn:D; [apply NB; split; [apply who_ok_spec; auto|apply stringv_spec; auto]|]. eapply B; [|exact E]. apply bad_arg_ok; auto.
  - eapply B; [|exact E]. apply bad_arg_ok; auto.
Qed.
Definition stx_val (h : heap) (v : val) : Prop := exists l e loc, v = VPtr l /\ nth_error h l = Some (CSyntax e loc).
Lemma syntaxv_spec h v : syntaxv h v = true <-> stx_val h v.
Proof.
  unfold syntaxv, stx_val. split.
  - destruct v; try discriminate. destruct (nth_error h l) as [[]|] eqn:N; try discriminate. eauto 6.
  - intros [l [e [loc [-> ->]]]]. auto.
Qed.
(** syntax->datum makes no records. *)
Definition plain_datum : Prop := forall h v c, In c (snd (datum h v)) -> is_record c = false.
Lemma news_ok cs : forall s, ready s -> (forall c, In c cs -> is_record c = false) -> exists s', news procs cs s = XOk tt s' /\ xh s' = xh s ++ cs /\ xps s' = xps s /\ ready s'.
Proof.
  induction cs as [|c cs IH]; intros s R N; cbn [news]; [exists s; rewrite app_nil_r; auto|].
  destruct (new_ok c s) as [s1 [E1 [H1 [P1 R1]]]]; auto. { intros r fs ->. specialize (N (CRec r fs) (or_introl eq_refl)). discriminate. }
  rewrite E1. cbn [xbind]. destruct (IH s1 R1) as [s2 [E2 [H2 [P2 R2]]]]; [intros; apply N; right; auto|]. exists s2. split; auto. split; [rewrite H2, H1, <- app_assoc; auto|]. split; auto. congruence.
Qed.
(** the datum of a form, if there is a form: #f otherwise *)
Definition form_datum (s : xst) (stx d : val) : Prop := (stx = VFalse /\ d = VFalse) \/ (stx_val (xh s) stx /\ d = fst (datum (xh s) stx)).
Lemma datum_of_ok stx s : plain_datum -> ready s -> stx = VFalse \/ stx_val (xh s) stx ->
  exists d s', datum_of procs datum stx s = XOk d s' /\ form_datum s stx d /\ grows (xh s) (xh s') /\ xps s' = xps s /\ ready s'.
Proof.
  intros PD R S. unfold datum_of, form_datum. destruct (syntaxv (xh s) stx) eqn:E.
  - apply syntaxv_spec in E. assert (P0 := PD (xh s) stx). destruct (datum (xh s) stx) as [v cs]. destruct (news_ok cs s R P0) as [s' [E1 [H1 [P1 R1]]]]. rewrite E1. cbn [xbind].
    exists v, s'. split; auto. split; auto. split; auto. exists cs. auto.
  - exists VFalse, s. split; auto. split; [|auto using grows_refl]. left. split; auto. destruct S as [S|S]; auto. apply syntaxv_spec in S. congruence.
Qed.
Theorem C63_syntax_error who msg stx sub s : plain_datum -> ready s -> named who -> str_val (xh s) msg -> stx = VFalse \/ stx_val (xh s) stx -> sub = VFalse \/ stx_val (xh s) sub ->
  raises (raise_syntax_error procs T datum who msg stx sub s) s KSyntax
    (fun h fs => exists a b s1, fs = [who; msg; a; b] /\ form_datum s stx a /\ grows (xh s) (xh s1) /\ form_datum s1 sub b).
Proof.
  intros PD R W M SX SB. unfold raise_syntax_error. apply who_ok_spec in W. apply stringv_spec in M. rewrite W, M.
  assert (TS : forall x, x = VFalse \/ stx_val (xh s) x -> (if truthy x then syntaxv (xh s) x else true) = true).
  { intros x [->|X]; auto. apply syntaxv_spec in X. destruct (truthy x); auto. }
  rewrite (TS stx SX), (TS sub SB). destruct (datum_of_ok stx s PD R SX) as [a [s1 [E1 [F1 [G1 [P1 R1]]]]]].
  assert (SB1 : sub = VFalse \/ stx_val (xh s1) sub). { destruct SB as [SB|[l [e [loc [-> N]]]]]; auto. right. exists l, e, loc. split; auto. eapply grows_nth; eauto. }
  destruct (datum_of_ok sub s1 PD R1 SB1) as [b [s2 [E2 [F2 [G2 [P2 R2]]]]]]. rewrite E1. cbn [xbind]. rewrite E2. cbn [xbind].
  apply (make_raises KSyntax [who; msg; a; b] s s2); auto; [eapply grows_trans; eauto|congruence|]. intros h' G. exists a, b, s1. auto.
Qed.
(** Wrong arguments are complained about (under the name syntax-error) *)
Theorem C63_syntax_error_refused who msg stx sub s : ready s ->
  let r := raise_syntax_error procs T datum who msg stx sub s in let form x := x = VFalse \/ stx_val (xh s) x in
  (~ named who -> raises r s KArg (complaint "syntax-error" "symbol? or #f" who)) /\
  (named who -> ~ str_val (xh s) msg -> raises r s KArg (complaint "syntax-error" "string" msg)) /\
  (named who -> str_val (xh s) msg -> ~ form stx -> raises r s KArg (complaint "syntax-error" "syntax or #f" stx)) /\
  (named who -> str_val (xh s) msg -> form stx -> ~ form sub -> raises r s KArg (complaint "syntax-error" "syntax or #f" sub)).
Proof.
  intros R r form. unfold r, form, raise_syntax_error. clear r form.
  assert (TS : forall x, x = VFalse \/ stx_val (xh s) x -> (if truthy x then syntaxv (xh s) x else true) = true).
  { intros x [->|X]; auto. apply syntaxv_spec in X. destruct (truthy x); auto. }
  assert (TF : forall x, ~ (x = VFalse \/ stx_val (xh s) x) -> (if truthy x then syntaxv (xh s) x else true) = false).
  { intros x X. destruct (truthy x) eqn:E; [destruct (syntaxv (xh s) x) eqn:F; auto; exfalso; apply X; right; apply syntaxv_spec; auto|]. exfalso. apply X. left. destruct x; auto; discriminate. }
  split; [|split; [|split]].
  - intros W. destruct (who_ok who) eqn:E; [apply who_ok_spec in E; contradiction|]. apply bad_arg_ok; auto.
  - intros W M. apply who_ok_spec in W. rewrite W. destruct (stringv (xh s) msg) eqn:E; [apply stringv_spec in E; contradiction|]. apply bad_arg_ok; auto.
  - intros W M X. apply who_ok_spec in W. apply stringv_spec in M. rewrite W, M, (TF _ X). apply bad_arg_ok; auto.
  - intros W M X Y. apply who_ok_spec in W. apply stringv_spec in M. rewrite W, M, (TS _ X), (TF _ Y). apply bad_arg_ok; auto.
Qed.

(** ** The kinds of exceptions *)

Lemma record_fun h v r fs r' fs' : record_of h v r fs -> record_of h v r' fs' -> r = r' /\ fs = fs'.
Proof. intros [l [-> [N _]]] [l' [E [N' _]]]. injection E as <-. rewrite N in N'. injection N' as <- <-. auto. Qed.
Lemma sub_base h k : exn_types h -> subtype h (T k) (T KExn).
Proof.
  intros [B D N]. destruct (kind_dec k KExn) as [->|NE]; [eapply SubSelf; eauto|]. eapply SubParent; [apply D; auto| |eapply SubSelf; eauto].
  destruct B as [l [? [? [? [? [? [? [-> _]]]]]]]]. discriminate.
Qed.
Lemma sub_trans h a b c : subtype h a b -> subtype h b c -> subtype h a c.
Proof. induction 1; intros X; auto. eapply SubParent; eauto. Qed.
Lemma sub_kinds h j k : exn_types h -> subtype h (T j) (T k) -> j = k \/ k = KExn.
Proof.
  intros [B D N] X. destruct (kind_dec j KExn) as [->|NE].
  - destruct (subtype_inv _ _ _ _ _ B X) as [E|[F _]]; [left; auto|contradiction].
  - destruct (subtype_inv _ _ _ _ _ (D j NE) X) as [E|[_ X2]]; [left; auto|]. destruct (subtype_inv _ _ _ _ _ B X2) as [E|[F _]]; [right; symmetry; auto|contradiction].
Qed.
Lemma exc_exn h k v fs : exn_types h -> exception h k v fs -> exception h KExn v fs.
Proof. intros X [r [RO S]]. exists r. split; auto. eapply sub_trans; eauto. apply sub_base; auto. Qed.
Lemma exc_excl h j k v fs fs' : exn_types h -> exception h j v fs -> exception h k v fs' -> j <> KExn -> k <> KExn -> j = k.
Proof.
  intros X [r [RO S]] [r' [RO' S']] NJ NK. destruct (record_fun _ _ _ _ _ _ RO RO') as [<- <-]. destruct (subtype_linear _ _ _ _ S S') as [Y|Y]; apply sub_kinds in Y; auto; destruct Y as [->| ->]; auto; contradiction.
Qed.
Lemma exc_self h k v fs : exn_types h -> record_of h v (T k) fs -> exception h k v fs.
Proof. intros X RO. exists (T k). split; auto. destruct (kind_descr _ k X) as [p D]. eapply SubSelf; eauto. Qed.
(** An exception of a type is an exception of [KExn] too, and of no third type. *)
Theorem C63_kinds s v r fs j k : ready s -> record_of (xh s) v r fs -> subtype (xh s) r (T j) ->
  exists b s', is_a procs T k v s = XOk (if b : bool then VTrue else VFalse) s' /\ s' = s /\ (b = true -> k = j \/ k = KExn \/ j = KExn) /\ (k = j \/ k = KExn -> b = true).
Proof.
  intros [G X] RO S. destruct (kind_descr _ k X) as [p D]. unfold is_a, rec_step, rstep. unfold xh in *. destruct (predicate_ok _ (T k) v G (proj2 (proj2 (descr_length _ _ _ _ D)))) as [b [P B]]. rewrite P. cbn [rbind].
  exists b, s. rewrite xst_eta. split; auto. split; auto. split.
  - intros E. apply B in E as [r' [fs' [RO' S']]]. destruct (record_fun _ _ _ _ _ _ RO RO') as [<- <-]. destruct (subtype_linear _ _ _ _ S S') as [Y|Y]; apply sub_kinds in Y; auto; destruct Y as [Y|Y]; auto.
  - intros E. apply B. exists r, fs. split; auto. destruct E as [->| ->]; auto. eapply sub_trans; eauto. apply sub_base; auto.
Qed.

(** ** The default handler *)

(** What is printed for the arity that was expected *)
Inductive arity_rest (h : heap) : val -> list byte -> Prop :=
| RestEnd : arity_rest h VNull []
| RestLast l a : nth_error h l = Some (CPair a VFalse) -> arity_rest h (VPtr l) (s2b ", at least " ++ disp h a)
| RestNext l a d o : nth_error h l = Some (CPair a d) -> d <> VFalse -> arity_rest h d o -> arity_rest h (VPtr l) (s2b ", " ++ disp h a ++ o).
Inductive arity_text (h : heap) : val -> list byte -> Prop :=
| TextCount n : arity_text h (VFix n) (disp h (VFix n))
| TextLeast l a : nth_error h l = Some (CPair a VFalse) -> arity_text h (VPtr l) (s2b "at least " ++ disp h a)
| TextMore l a d o : nth_error h l = Some (CPair a d) -> d <> VFalse -> arity_rest h d o -> arity_text h (VPtr l) (disp h a ++ o).
Definition line (t : list byte) : list byte := t ++ [LF].
Definition heading (h : heap) (who m : val) : list byte :=
  match who with VFalse => line (s2b "error: " ++ disp h m) | _ => line (disp h who ++ s2b ": " ++ disp h m) end.
(** What is printed for an exception *)
Inductive explains (h : heap) (v : val) : list byte -> Prop :=
| EArg who m e a q : exception h KArg v (who :: m :: e :: a :: q) ->
    explains h v (heading h who m ++ line (s2b "  expected: " ++ disp h e) ++ line (s2b "  given: " ++ disp h a))
| EArity who m e a q o : exception h KArity v (who :: m :: e :: a :: q) -> arity_text h e o ->
    explains h v (heading h who m ++ line (s2b "  expected: " ++ o) ++ line (s2b "  given: " ++ disp h a))
| ERange who m x d lo up i q t : exception h KRange v (who :: m :: x :: d :: lo :: up :: i :: q) -> text h d t ->
    explains h v (heading h who m ++ line (s2b "  range: [" ++ disp h lo ++ s2b ", " ++ disp h up ++ s2b ")") ++
                  line (s2b "  " ++ match t with [] => [] | _ => disp h d ++ s2b " " end ++ s2b "index: " ++ disp h i) ++ line (s2b "  in: " ++ disp h x))
| EMissing who m d x k q : exception h KMissing v (who :: m :: d :: x :: k :: q) ->
    explains h v (heading h who m ++ line (s2b "  " ++ disp h d ++ s2b ": " ++ disp h k) ++ line (s2b "  in: " ++ disp h x))
| ESyntax who m form sub q : exception h KSyntax v (who :: m :: form :: sub :: q) ->
    explains h v (heading h who m ++ match form with VFalse => [] | _ => line (s2b "  in: " ++ disp h form) end ++ match sub with VFalse => [] | _ => line (s2b "  at: " ++ disp h sub) end)
| EExn who m q : exception h KExn v (who :: m :: q) -> (forall k fs, k <> KExn -> ~ exception h k v fs) -> explains h v (heading h who m)
| EOther : (forall fs, ~ exception h KExn v fs) -> explains h v (line (s2b "uncaught exception: " ++ disp h v)).

(** [prints w m a o]: in a state with these objects [m] prints [o] to the error port,
    returns [a] and changes nothing else *)
Definition prints {A} (w : rworld) (m : xst -> xres A) (a : A) (o : list byte) : Prop :=
  forall s t, xw s = w -> out_port (xps s) ep t -> exists ps, m s = XOk a (XS w ps) /\ out_port ps ep (t ++ o) /\ (forall j, j <> ep -> nth_error ps j = nth_error (xps s) j).
Lemma pret {A} w (a : A) : prints w (fun s => XOk a s) a [].
Proof. intros s t <- OP. exists (xps s). rewrite app_nil_r, xst_eta. auto. Qed.
Lemma pbind {A B} w m (k : A -> xst -> xres B) a b o1 o2 o : prints w m a o1 -> prints w (k a) b o2 -> o = o1 ++ o2 -> prints w (fun s => xbind (m s) k) b o.
Proof.
  intros M K -> s t W OP. destruct (M s t W OP) as [ps [E [OP1 J1]]]. rewrite E. cbn [xbind]. destruct (K (XS w ps) _ eq_refl OP1) as [ps2 [E2 [OP2 J2]]].
  exists ps2. split; auto. rewrite <- app_assoc in OP2. split; auto. intros j NJ. rewrite J2 by auto. apply J1. auto.
Qed.
Lemma pbind0 {A B} w m (k : A -> xst -> xres B) a b o : prints w m a [] -> prints w (k a) b o -> prints w (fun s => xbind (m s) k) b o.
Proof. intros M K. eapply pbind; eauto. Qed.
Lemma pget w k v fs i x : good (rw_heap w) -> exn_types (rw_heap w) -> exception (rw_heap w) k v fs -> i < List.length (own k) -> nth_error fs (base k + i) = Some x -> prints w (get procs T k i v) x [].
Proof.
  intros G X [r [RO S]] L N s t <- OP. destruct (kind_descr _ k X) as [p D]. exists (xps s). split; [|rewrite app_nil_r; auto]. unfold get, rec_step, rstep.
  rewrite (proj1 (get_ok _ _ _ _ _ _ _ _ _ G RO S D (kind_inherited _ k X) L)), N. cbn [need]. rewrite xst_eta. auto.
Qed.
Lemma pis w k v : good (rw_heap w) -> exn_types (rw_heap w) ->
  ((exists fs, exception (rw_heap w) k v fs) /\ prints w (is_a procs T k v) VTrue []) \/ ((forall fs, ~ exception (rw_heap w) k v fs) /\ prints w (is_a procs T k v) VFalse []).
Proof.
  intros G X. destruct (kind_descr _ k X) as [p D]. destruct (predicate_ok _ (T k) v G (proj2 (proj2 (descr_length _ _ _ _ D)))) as [b [P B]]. destruct b.
  - left. split.
    + destruct (proj1 B eq_refl) as [r [fs [RO S]]]. exists fs, r. auto.
    + intros s t <- OP. exists (xps s). split; [|rewrite app_nil_r; auto]. unfold is_a, rec_step, rstep. rewrite P. cbn [rbind]. rewrite xst_eta. auto.
  - right. split.
    + intros fs [r [RO S]]. assert (false = true) by (apply B; exists r, fs; auto). discriminate.
    + intros s t <- OP. exists (xps s). split; [|rewrite app_nil_r; auto]. unfold is_a, rec_step, rstep. rewrite P. cbn [rbind]. rewrite xst_eta. auto.
Qed.
Lemma peprint w fmt args pcs o o' : means (cstr fmt) pcs -> ~ In Tilde pcs -> output (disp (rw_heap w)) (wr (rw_heap w)) pcs args o -> o' = o -> prints w (eprint disp wr ep fmt args) tt o'.
Proof.
  intros M NT O -> s t <- OP. destruct (C49_fprintf_partial _ (disp (xh s)) (wr (xh s)) (xps s) ep t fmt pcs args o OP M NT O) as [ps [E [OP' J]]].
  assert (OP2 := OP). destruct OP2 as [p [N [I _]]]. unfold fprintf in E. rewrite N, I in E. exists ps. split; auto. unfold eprint. rewrite E. auto.
Qed.
Lemma truthy_true x : x <> VFalse -> truthy x = true. Proof. destruct x; auto. Qed.

Ltac eq_out := unfold heading, line; eq_tac.
Ltac pe := peprint_tac peprint; try eq_out.

Section Report.
Variable w : rworld.
Hypothesis G : good (rw_heap w).
Hypothesis X : exn_types (rw_heap w).
Let h := rw_heap w.
Lemma pdisplay v who m q : exception h KExn v (who :: m :: q) -> prints w (display_exn procs disp wr T ep v) tt (heading h who m).
Proof.
  intros E. unfold display_exn. eapply pbind0; [eapply (pget w KExn v _ 0 who G X E); [cbn; auto|reflexivity]|]. destruct (truthy who) eqn:TW.
  - eapply pbind0; [eapply (pget w KExn v _ 0 who G X E); [cbn; auto|reflexivity]|]. cbv beta.
    eapply pbind0; [eapply (pget w KExn v _ 1 m G X E); [cbn; auto|reflexivity]|].
    peprint_tac peprint. destruct who; try discriminate; eq_out.
  - assert (who = VFalse) as -> by (destruct who; auto; discriminate). eapply pbind0; [eapply (pget w KExn v _ 1 m G X E); [cbn; auto|reflexivity]|]. pe.
Qed.
Lemma pcar l a d : nth_error h l = Some (CPair a d) -> prints w (car procs T (VPtr l)) a [].
Proof. intros N s t <- OP. exists (xps s). split; [|rewrite app_nil_r; auto]. unfold car, pairv, xh. fold h. rewrite N, xst_eta. auto. Qed.
Lemma pcdr l a d : nth_error h l = Some (CPair a d) -> prints w (cdr procs T (VPtr l)) d [].
Proof. intros N s t <- OP. exists (xps s). split; [|rewrite app_nil_r; auto]. unfold cdr, pairv, xh. fold h. rewrite N, xst_eta. auto. Qed.
Lemma prest x o : arity_rest h x o -> exists f0, forall f, f0 <= f -> prints w (arity_tail procs disp wr T ep f x) tt (line o).
Proof.
  induction 1 as [|l a N|l a d o N ND R IH].
  - exists 1. intros f F. destruct f as [|f]; [lia|]. cbn [arity_tail]. pe.
  - exists 1. intros f F. destruct f as [|f]; [lia|]. cbn [arity_tail]. eapply pbind0; [eapply pcdr; eauto|]. cbv beta. eapply pbind0; [eapply pcar; eauto|]. cbn [truthy].
    replace (line (s2b ", at least " ++ disp h a)) with (s2b ", at least " ++ disp h a ++ [LF]) by eq_out. pe.
  - destruct IH as [f0 IH]. exists (S f0). intros f F. destruct f as [|f]; [lia|]. cbn [arity_tail]. eapply pbind0; [eapply pcdr; eauto|]. cbv beta. eapply pbind0; [eapply pcar; eauto|].
    rewrite (truthy_true d ND). eapply pbind; [|apply IH; lia|].
    + pe.
    + eq_out.
Qed.
Lemma parity x o : arity_text h x o -> exists f0, forall f, f0 <= f -> prints w (display_arity procs disp wr T ep f x) tt (line o).
Proof.
  intros [n|l a N|l a d o' N ND R].
  - exists 0. intros f F. unfold display_arity. cbn [intv]. pe.
  - exists 0. intros f F. unfold display_arity. cbn [intv]. eapply pbind0; [eapply pcdr; eauto|]. cbv beta. eapply pbind0; [eapply pcar; eauto|]. cbn [truthy].
    replace (line (s2b "at least " ++ disp h a)) with (s2b "at least " ++ disp h a ++ [LF]) by eq_out. pe.
  - destruct (prest d o' R) as [f0 P]. exists f0. intros f F. unfold display_arity. cbn [intv]. eapply pbind0; [eapply pcdr; eauto|]. cbv beta. eapply pbind0; [eapply pcar; eauto|].
    rewrite (truthy_true d ND). eapply pbind; [|apply P; auto|].
    + pe.
    + eq_out.
Qed.
Lemma pyes k v fs : exception h k v fs -> prints w (is_a procs T k v) VTrue [].
Proof. intros E. destruct (pis w k v G X) as [[_ P]|[N P]]; auto. exfalso. eapply N; eauto. Qed.
Lemma pno k v : (forall fs, ~ exception h k v fs) -> prints w (is_a procs T k v) VFalse [].
Proof. intros E. destruct (pis w k v G X) as [[[fs N] P]|[N P]]; auto. exfalso. eapply E; eauto. Qed.
Lemma pother j k v fs : exception h j v fs -> j <> KExn -> k <> KExn -> j <> k -> prints w (is_a procs T k v) VFalse [].
Proof. intros E NJ NK NE. apply pno. intros fs' E'. apply NE. eapply exc_excl; eauto. Qed.
Lemma report_ok v o : explains h v o -> exists f0, forall f, f0 <= f -> prints w (report procs disp wr T ep f v) tt o.
Proof.
  intros E.
  assert (FLD : forall k fs i x, exception h k v fs -> i < List.length (own k) -> nth_error fs (base k + i) = Some x -> prints w (get procs T k i v) x []) by (intros; eapply pget; eauto).
  Ltac skip E := eapply pbind0; [eapply pother; [exact E|discriminate|discriminate|discriminate]|]; cbn [truthy].
  Ltac yes E := eapply pbind0; [eapply pyes; exact E|]; cbn [truthy].
  Ltac gt FLD E := eapply pbind0; [eapply (FLD _ _ _ _ E); [cbn; lia|reflexivity]|]; cbv beta.
  destruct E as [who m e a q E|who m e a q o E AT|who m x d lo up i q t E TX|who m d x k q E|who m form sub q E|who m q E NO|NO].
  - exists 0. intros f F. unfold report. yes E. eapply pbind; [eapply pdisplay, exc_exn; eauto| |reflexivity]. cbv beta. gt FLD E. eapply pbind; [pe| |]. cbv beta. gt FLD E. pe. eq_out.
  - destruct (parity e o AT) as [f0 P]. exists f0. intros f F. unfold report. skip E. yes E. eapply pbind; [eapply pdisplay, exc_exn; eauto| |reflexivity]. cbv beta. eapply pbind; [pe| |]. cbv beta.
    gt FLD E. eapply pbind; [apply P; auto| |]. cbv beta. gt FLD E. pe. reflexivity. eq_out.
  - exists 0. intros f F. unfold report. skip E. skip E. yes E. eapply pbind; [eapply pdisplay, exc_exn; eauto| |reflexivity]. cbv beta. gt FLD E. gt FLD E. eapply pbind; [pe| |]. cbv beta. gt FLD E.
    instantiate (1 := line (s2b "  " ++ match t with [] => [] | _ => disp h d ++ s2b " " end ++ s2b "index: " ++ disp h i) ++ line (s2b "  in: " ++ disp h x)).
    + intros s t0 WS OP. unfold xh at 1. rewrite WS. fold h. apply string_at_spec in TX as [b [SB TX]]. rewrite SB. unfold shown. rewrite TX. revert s t0 WS OP.
      eapply pbind.
      * instantiate (1 := line (s2b "  " ++ match t with [] => [] | _ => disp h d ++ s2b " " end ++ s2b "index: " ++ disp h i)). destruct t as [|c t].
        -- gt FLD E. replace (line _) with (s2b "  index: " ++ disp h i ++ [LF]) by eq_out. pe.
        -- gt FLD E. gt FLD E. replace (line _) with (s2b "  " ++ disp h d ++ s2b " index: " ++ disp h i ++ [LF]) by eq_out. pe.
      * cbv beta. gt FLD E. replace (line (s2b "  in: " ++ disp h x)) with (s2b "  in: " ++ disp h x ++ [LF]) by eq_out. pe.
      * reflexivity.
    + eq_out.
  - exists 0. intros f F. unfold report. skip E. skip E. skip E. yes E. eapply pbind; [eapply pdisplay, exc_exn; eauto| |reflexivity]. cbv beta. gt FLD E. gt FLD E. eapply pbind; [pe| |]. cbv beta. gt FLD E. pe. eq_out.
  - exists 0. intros f F. unfold report. skip E. skip E. skip E. skip E. yes E. eapply pbind; [eapply pdisplay, exc_exn; eauto| |reflexivity]. cbv beta. gt FLD E. eapply pbind; [| |reflexivity].
    + instantiate (1 := tt). destruct (truthy form) eqn:TF.
      * replace (match form with VFalse => [] | _ => line (s2b "  in: " ++ disp h form) end) with (s2b "  in: " ++ disp h form ++ [LF]) by (destruct form; try discriminate; eq_out). gt FLD E. pe.
      * destruct form; try discriminate. apply pret.
    + cbv beta. gt FLD E. destruct (truthy sub) eqn:TF.
      * replace (match sub with VFalse => [] | _ => line (s2b "  at: " ++ disp h sub) end) with (s2b "  at: " ++ disp h sub ++ [LF]) by (destruct sub; try discriminate; eq_out). gt FLD E. pe.
      * destruct sub; try discriminate. apply pret.
  - exists 0. intros f F. unfold report. do 5 (eapply pbind0; [apply pno; intros fs; apply NO; discriminate|]; cbn [truthy]). yes E. eapply pdisplay; eauto.
  - exists 0. intros f F. unfold report. assert (NO2 : forall k fs, ~ exception h k v fs) by (intros k fs E; eapply NO, exc_exn; eauto).
    do 6 (eapply pbind0; [apply pno; intros fs; apply NO2|]; cbn [truthy]). replace (line _) with (s2b "uncaught exception: " ++ disp h v ++ [LF]) by eq_out. pe.
Qed.
End Report.

(** An exception that nothing handles is reported to the error port, and the process
    ends with status 1; nothing else changes. *)
Theorem C63_report v s o t : ready s -> out_port (xps s) ep t -> explains (xh s) v o ->
  exists f0, forall f, f0 <= f -> exists ps, handled procs disp wr T ep f v s = XExit 1 (XS (xw s) ps) /\ out_port ps ep (t ++ o) /\ (forall j, j <> ep -> nth_error ps j = nth_error (xps s) j).
Proof.
  intros [G X] OP E. destruct (report_ok (xw s) G X v o E) as [f0 P]. exists (S f0). intros f F. destruct (P f ltac:(lia) s t eq_refl OP) as [ps [E1 [OP1 J1]]].
  exists ps. split; auto. destruct f as [|f]; [lia|]. cbn [handled]. unfold handler. rewrite E1. auto.
Qed.

(** Whatever is raised, the process ends after a report, provided that the arity in an
    arity exception, if it is one, is not a cyclic list: exceptions with other wrong
    fields are reported too, as far as they can be, and then the exception that this
    raises is. *)
Definition fails {A} (w : rworld) (m : xst -> xres A) (o : list byte) : Prop :=
  forall s t, xw s = w -> out_port (xps s) ep t -> exists v s' who msg e a, m s = XRaise v s' /\ record_of (xh s') v (T KArg) [who; msg; e; a] /\ ready s' /\ grows (rw_heap w) (xh s') /\ out_port (xps s') ep (t ++ o).
Lemma fbind {A B} w m (k : A -> xst -> xres B) a o1 o2 : prints w m a o1 -> fails w (k a) o2 -> fails w (fun s => xbind (m s) k) (o1 ++ o2).
Proof.
  intros M K s t W OP. destruct (M s t W OP) as [ps [E [OP1 J1]]]. rewrite E. cbn [xbind]. destruct (K (XS w ps) _ eq_refl OP1) as [v [s' [who [msg [e [x [E2 [RO [R [GR OP2]]]]]]]]]].
  rewrite <- app_assoc in OP2. exists v, s', who, msg, e, x. auto.
Qed.
Lemma fail_first {A B} w m (k : A -> xst -> xres B) o : fails w m o -> fails w (fun s => xbind (m s) k) o.
Proof. intros M s t W OP. destruct (M s t W OP) as [v [s' [who [msg [e [x [E2 [RO [R [GR OP2]]]]]]]]]]. rewrite E2. cbn [xbind]. exists v, s', who, msg, e, x. auto. Qed.
Lemma out_port_same ps ps' i t : nth_error ps' i = nth_error ps i -> out_port ps i t -> out_port ps' i t.
Proof. intros E [p [N Q]]. exists p. rewrite E. auto. Qed.
Lemma fbad w who e v : good (rw_heap w) -> exn_types (rw_heap w) -> cstr (s2b e) = s2b e -> fails w (bad_arg procs T who e v) [].
Proof.
  intros G X CE s t <- OP. destruct (bad_arg_ok who e v s CE (conj G X)) as [r [s' [fs [E [RO [[m [x [-> _]]] [GR [R [_ J]]]]]]]]]. exists r, s', (VSym (s2b who)), m, x, v.
  split; auto. split; auto. split; auto. split; auto. rewrite app_nil_r. eapply out_port_same; [|exact OP]. apply J. destruct OP as [p [N _]]. apply nth_error_Some. congruence.
Qed.
Definition finite (h : heap) (x : val) : Prop := exists ls, cells h x ls.
Lemma rest_or_fails w x ls : good (rw_heap w) -> exn_types (rw_heap w) -> cells (rw_heap w) x ls ->
  (exists o, arity_rest (rw_heap w) x o) \/ forall f, List.length ls < f -> exists o, fails w (arity_tail procs disp wr T ep f x) o.
Proof.
  intros G X. induction 1 as [x PV|l a d ls N C IH].
  - destruct x; try (left; eexists; apply RestEnd); right; intros f F; (destruct f as [|f]; [inversion F|]); cbn [arity_tail]; eexists; apply fail_first; unfold cdr; intros s t W OP;
      unfold xh at 1; rewrite W, PV; revert s t W OP; apply fbad; auto.
  - destruct (truthy d) eqn:TD.
    + apply truthy_spec in TD. destruct IH as [[o R]|IH]; [left; eexists; eapply RestNext; eauto|]. right. intros f F. destruct f as [|f]; [inversion F|]. cbn [arity_tail].
      destruct (IH f) as [o FO]; [cbn in F; lia|]. eexists. eapply fbind; [eapply pcdr; eauto|]. cbv beta. eapply fbind; [eapply pcar; eauto|]. rewrite (truthy_true d TD). eapply fbind; [|exact FO]. peprint_tac peprint. reflexivity.
    + left. destruct d; try discriminate. eexists. eapply RestLast; eauto.
Qed.
Lemma arity_or_fails w x ls : good (rw_heap w) -> exn_types (rw_heap w) -> cells (rw_heap w) x ls ->
  (exists o, arity_text (rw_heap w) x o) \/ forall f, List.length ls < f -> exists o, fails w (display_arity procs disp wr T ep f x) o.
Proof.
  intros G X C. destruct (intv x) eqn:IX; [apply intv_spec in IX as [n ->]; left; eexists; apply TextCount|].
  destruct C as [x PV|l a d ls N C].
  - right. intros f F. eexists. unfold display_arity. rewrite IX. apply fail_first. intros s t W OP. unfold cdr, xh at 1. rewrite W, PV. revert s t W OP. apply fbad; auto.
  - destruct (truthy d) eqn:TD.
    + apply truthy_spec in TD. destruct (rest_or_fails w d ls G X C) as [[o R]|FR]; [left; eexists; eapply TextMore; eauto|]. right. intros f F. destruct (FR f) as [o FO]; [cbn in F; lia|].
      eexists. unfold display_arity. rewrite IX. eapply fbind; [eapply pcdr; eauto|]. cbv beta. eapply fbind; [eapply pcar; eauto|]. rewrite (truthy_true d TD). eapply fbind; [|exact FO]. peprint_tac peprint. reflexivity.
    + left. destruct d; try discriminate. eexists. eapply TextLeast; eauto.
Qed.
Lemma exc_length h k v fs : good h -> exn_types h -> exception h k v fs -> base k + List.length (own k) <= List.length fs.
Proof.
  intros G X [r [RO S]]. destruct (kind_descr _ k X) as [p D]. assert (L : 0 < List.length (own k)) by (destruct k; cbn; lia).
  destruct (get_ok _ _ _ _ _ _ _ _ (List.length (own k) - 1) G RO S D (kind_inherited _ k X)) as [_ LT]; lia.
Qed.
Definition reportable (h : heap) (v : val) : Prop := forall fs e, exception h KArity v fs -> nth_error fs 2 = Some e -> finite h e.
Lemma report_cases w v : good (rw_heap w) -> exn_types (rw_heap w) -> reportable (rw_heap w) v ->
  (exists o, explains (rw_heap w) v o) \/ exists f0, forall f, f0 <= f -> exists o, fails w (report procs disp wr T ep f v) o.
Proof.
  intros G X RP. set (h := rw_heap w) in *.
  assert (FLD : forall k fs i x, exception h k v fs -> i < List.length (own k) -> nth_error fs (base k + i) = Some x -> prints w (get procs T k i v) x []) by (intros; eapply pget; eauto).
  destruct (pis w KArg v G X) as [[[fs E] _]|[N1 P1]].
  { left. assert (L := exc_length _ _ _ _ G X E). destruct fs as [|a [|b [|c [|d q]]]]; cbn in L; try lia. eexists. eapply EArg; eauto. }
  destruct (pis w KArity v G X) as [[[fs E] P2]|[N2 P2]].
  { assert (L := exc_length _ _ _ _ G X E). destruct fs as [|a [|b [|c [|d q]]]]; cbn in L; try lia. destruct (RP _ c E eq_refl) as [ls C].
    destruct (arity_or_fails w c ls G X C) as [[o A]|F]; [left; eexists; eapply EArity; eauto|]. right. exists (S (List.length ls)). intros f LF. destruct (F f ltac:(lia)) as [o FO].
    eexists. unfold report. eapply fbind; [exact P1|]. cbn [truthy]. eapply fbind; [exact P2|]. cbn [truthy]. eapply fbind; [eapply (pdisplay w G X), exc_exn; eauto|]. cbv beta.
    eapply fbind; [peprint_tac peprint; reflexivity|]. cbv beta. eapply fbind; [eapply (FLD _ _ _ _ E); [cbn; lia|reflexivity]|]. cbv beta. apply fail_first. exact FO. }
  destruct (pis w KRange v G X) as [[[fs E] P3]|[N3 P3]].
  { assert (L := exc_length _ _ _ _ G X E). destruct fs as [|who [|m [|x [|d [|lo [|up [|i q]]]]]]]; cbn in L; try lia. destruct (string_at h d) as [b|] eqn:SD.
    - left. eexists. eapply ERange; eauto. apply string_at_spec. eauto.
    - right. exists 0. intros f _. eexists. unfold report. eapply fbind; [exact P1|]. cbn [truthy]. eapply fbind; [exact P2|]. cbn [truthy]. eapply fbind; [exact P3|]. cbn [truthy].
      eapply fbind; [eapply (pdisplay w G X), exc_exn; eauto|]. cbv beta. eapply fbind; [eapply (FLD _ _ _ _ E); [cbn; lia|reflexivity]|]. cbv beta.
      eapply fbind; [eapply (FLD _ _ _ _ E); [cbn; lia|reflexivity]|]. cbv beta. eapply fbind; [peprint_tac peprint; reflexivity|]. cbv beta. eapply fbind; [eapply (FLD _ _ _ _ E); [cbn; lia|reflexivity]|].
      intros s t W OP. unfold xh at 1. rewrite W. fold h. rewrite SD. revert s t W OP. apply fail_first. apply fbad; auto. }
  destruct (pis w KMissing v G X) as [[[fs E] _]|[N4 P4]].
  { left. assert (L := exc_length _ _ _ _ G X E). destruct fs as [|a [|b [|c [|d [|e q]]]]]; cbn in L; try lia. eexists. eapply EMissing; eauto. }
  destruct (pis w KSyntax v G X) as [[[fs E] _]|[N5 P5]].
  { left. assert (L := exc_length _ _ _ _ G X E). destruct fs as [|a [|b [|c [|d q]]]]; cbn in L; try lia. eexists. eapply ESyntax; eauto. }
  left. destruct (pis w KExn v G X) as [[[fs E] _]|[N6 P6]].
  - assert (L := exc_length _ _ _ _ G X E). destruct fs as [|a [|b q]]; cbn in L; try lia. eexists. eapply EExn; eauto. intros k fs' NK. destruct k; auto.
  - eexists. eapply EOther. auto.
Qed.
Theorem C63_always_exits v s t : ready s -> out_port (xps s) ep t -> reportable (xh s) v ->
  exists f0, forall f, f0 <= f -> exists s' o, handled procs disp wr T ep f v s = XExit 1 s' /\ out_port (xps s') ep (t ++ o) /\ grows (xh s) (xh s').
Proof.
  intros R OP RP. destruct (report_cases (xw s) v (proj1 R) (proj2 R) RP) as [[o E]|[f0 F]].
  - destruct (C63_report v s o t R OP E) as [f0 P]. exists f0. intros f L. destruct (P f L) as [ps [E1 [OP1 _]]]. exists (XS (xw s) ps), o. split; auto. split; auto. exists []. cbn. rewrite app_nil_r. auto.
  - exists (S (S f0)). intros f L. destruct f as [|[|f]]; [lia|lia|]. destruct (F (S (S f)) ltac:(lia)) as [o FO]. destruct (FO s t eq_refl OP) as [v' [s' [who [msg [e [a [E [RO [R' [GR OP']]]]]]]]]].
    assert (E2 : exception (xh s') KArg v' [who; msg; e; a]) by (apply exc_self; auto; apply R').
    destruct (report_ok (xw s') (proj1 R') (proj2 R') v' _ (EArg _ _ _ _ _ _ _ E2)) as [f1 P]. 
    assert (P0 : prints (xw s') (report procs disp wr T ep (S f) v') tt (heading (xh s') who msg ++ line (s2b "  expected: " ++ disp (xh s') e) ++ line (s2b "  given: " ++ disp (xh s') a))).
    { intros s0 t0 W0 OP0. destruct (P f1 (le_n _) s0 t0 W0 OP0) as [ps [E0 Q]]. exists ps. split; auto. rewrite <- E0. unfold report.
      destruct (pyes (xw s') (proj1 R') (proj2 R') KArg v' _ E2 s0 t0 W0 OP0) as [ps1 [E3 _]]. rewrite E3. cbn [xbind truthy]. reflexivity. }
    destruct (P0 s' _ eq_refl OP') as [ps [E0 [OP0 _]]]. eexists (XS (xw s') ps), _. split; [|split; [rewrite <- app_assoc in OP0; exact OP0|exact GR]].
    change (handled procs disp wr T ep (S (S f)) v s) with (match handler procs disp wr T ep (S (S f)) v s with XRaise v' s' => handled procs disp wr T ep (S f) v' s' | r => r end).
    unfold handler at 1. rewrite E. cbn [xbind]. cbn [handled]. unfold handler. rewrite E0. auto.
Qed.
(** An arity exception whose arity is a cyclic list (make-arity-exn accepts any value)
    is reported without end. *)
Theorem C63_cyclic_arity_refuted v who m l a x q s t : ready s -> out_port (xps s) ep t -> exception (xh s) KArity v (who :: m :: VPtr l :: x :: q) ->
  nth_error (xh s) l = Some (CPair a (VPtr l)) -> forall f, handled procs disp wr T ep f v s = XFuel.
Proof.
  intros [G X] OP E N f.
  assert (LOOP : forall f s0 t0, xw s0 = xw s -> out_port (xps s0) ep t0 -> arity_tail procs disp wr T ep f (VPtr l) s0 = XFuel).
  { induction f0 as [|f0 IH]; intros s0 t0 W OP0; auto. cbn [arity_tail]. destruct (pcdr (xw s) G X l _ _ N s0 t0 W OP0) as [ps [E1 [OP1 _]]]. rewrite E1. cbn [xbind].
    destruct (pcar (xw s) G X l _ _ N (XS (xw s) ps) _ eq_refl OP1) as [ps2 [E2 [OP2 _]]]. rewrite E2. cbn [xbind truthy].
    assert (P : prints (xw s) (eprint disp wr ep (s2b ", ~a") [a]) tt (s2b ", " ++ disp (xh s) a)) by (unfold xh; peprint_tac peprint; eq_tac).
    destruct (P (XS (xw s) ps2) _ eq_refl OP2) as [ps3 [E3 [OP3 _]]]. rewrite E3. cbn [xbind]. eapply IH; [|exact OP3]. auto. }
  destruct f as [|f]; auto. cbn [handled]. assert (H : report procs disp wr T ep (S f) v s = XFuel); [|unfold handler; rewrite H; auto].
  assert (FLD : forall k fs i x, exception (xh s) k v fs -> i < List.length (own k) -> nth_error fs (base k + i) = Some x -> prints (xw s) (get procs T k i v) x []) by (intros; eapply pget; eauto).
  assert (P : prints (xw s) (fun s => xbind (is_a procs T KArg v s) (fun b s => xbind (is_a procs T KArity v s) (fun b s => xbind (display_exn procs disp wr T ep v s) (fun _ s =>
            xbind (eprint disp wr ep (s2b "  expected: ") [] s) (fun _ s => get procs T KArity 0 v s))))) (VPtr l) (heading (xh s) who m ++ s2b "  expected: ")).
  { eapply pbind0; [eapply (pother (xw s) G X KArity); eauto; discriminate|]. eapply pbind0; [eapply (pyes (xw s) G X); eauto|]. eapply pbind; [eapply (pdisplay (xw s) G X), exc_exn; eauto| |reflexivity].
    eapply pbind; [peprint_tac peprint; reflexivity| |]. eapply (FLD _ _ _ _ E); [cbn; lia|reflexivity]. eq_tac. }
  destruct (P s t eq_refl OP) as [ps [EP [OP1 _]]].
  destruct (pother (xw s) G X KArity KArg v _ E ltac:(discriminate) ltac:(discriminate) ltac:(discriminate) s t eq_refl OP) as [ps1 [E1 [OPa _]]].
  unfold report. rewrite E1 in EP |- *. cbn [xbind truthy] in EP |- *.
  destruct (pyes (xw s) G X KArity v _ E (XS (xw s) ps1) _ eq_refl OPa) as [ps2 [E2 [OPb _]]]. rewrite E2 in EP |- *. cbn [xbind truthy] in EP |- *.
  destruct (display_exn procs disp wr T ep v (XS (xw s) ps2)) as [u su|? ?|? ?|?|?| |]; try discriminate. cbn [xbind] in EP |- *.
  destruct (eprint disp wr ep (s2b "  expected: ") [] su) as [u2 su2|? ?|? ?|?|?| |]; try discriminate. cbn [xbind] in EP |- *. rewrite EP. cbn [xbind].
  unfold display_arity. cbn [intv]. destruct (pcdr (xw s) G X l _ _ N (XS (xw s) ps) _ eq_refl OP1) as [ps3 [E3 [OP3 _]]]. rewrite E3. cbn [xbind].
  destruct (pcar (xw s) G X l _ _ N (XS (xw s) ps3) _ eq_refl OP3) as [ps4 [E4 [OP4 _]]]. rewrite E4. cbn [xbind truthy].
  assert (P5 : prints (xw s) (eprint disp wr ep (s2b "~a") [a]) tt (disp (xh s) a)) by (unfold xh; peprint_tac peprint; eq_tac).
  destruct (P5 (XS (xw s) ps4) _ eq_refl OP4) as [ps5 [E5 [OP5 _]]]. rewrite E5. cbn [xbind]. erewrite LOOP; [reflexivity| |exact OP5]. auto.
Qed.

(** From a call of error to the end of the process *)
Theorem C63_error_to_exit who msg m s t : ready s -> out_port (xps s) ep t -> named who -> text (xh s) msg m ->
  (forall h v b, text h v b -> disp h v = b) -> (forall h n, disp h (VSym n) = n) ->
  exists v s', error procs disp wr T who msg [] s = XRaise v s' /\
    exists f0, forall f, f0 <= f -> exists s2, handled procs disp wr T ep f v s' = XExit 1 s2 /\
      out_port (xps s2) ep (t ++ line (match who with VFalse => s2b "error" | _ => disp (xh s') who end ++ s2b ": " ++ m)).
Proof.
  intros R OP W M DS DN. destruct (C63_error who msg [] s R (or_introl W) (ex_intro _ _ M)) as [v [s' [fs [E [RO [[x [-> [EQ _]]] [GR [R' [_ J]]]]]]]]].
  exists v, s'. split; auto. rewrite (EQ eq_refl) in *. assert (OP' : out_port (xps s') ep t). { eapply out_port_same; [|exact OP]. apply J. destruct OP as [p [N _]]. apply nth_error_Some. congruence. }
  assert (EX : explains (xh s') v (heading (xh s') who msg)).
  { eapply EExn; [apply exc_self; eauto; apply R'|]. intros k fs NK [r [RO2 S2]]. destruct (record_fun _ _ _ _ _ _ RO RO2) as [<- _]. apply sub_kinds in S2; [|apply R']. destruct S2 as [S2|S2]; congruence. }
  destruct (C63_report v s' _ t R' OP' EX) as [f0 P]. exists f0. intros f L. destruct (P f L) as [ps [E1 [OP1 _]]]. eexists. split; [exact E1|]. cbn [xps].
  replace (line _) with (heading (xh s') who msg); auto. unfold heading. rewrite (DS _ _ _ (text_grows _ _ _ _ GR M)). destruct who; auto.
Qed.
End C63.

(** ** The definition of the types *)
Definition type_of (l : list val) (k : kind) : val :=
  nth (match k with KExn => 0 | KArg => 1 | KArity => 2 | KRange => 3 | KMissing => 4 | KSyntax => 5 end) l VFalse.
Lemma def_ok procs w p k : good (rw_heap w) -> (forall v, tab_equal (rw_tabs w) v = None /\ tab_hash (rw_tabs w) v = None /\ tab_writer (rw_tabs w) v = None) ->
  p = VFalse \/ rtdp (rw_heap w) p = true ->
  exists h', def_kind procs p w k = (ROk (VPtr (List.length (rw_heap w))), RW h' (rw_tabs w)) /\
    h' = rw_heap w ++ [CRec VBaseRtd (vsym (type_name k) :: p :: VFalse :: VTrue :: VTrue :: VFalse :: map vsym (own k))] /\ good h' /\ descriptor h' (VPtr (List.length (rw_heap w))) p (List.length (own k)).
Proof.
  intros G TB P. set (h' := rw_heap w ++ [CRec VBaseRtd (vsym (type_name k) :: p :: VFalse :: VTrue :: VTrue :: VFalse :: map vsym (own k))]). exists h'. split.
  - unfold def_kind, rstep, make_rtd. destruct P as [->|P]; [reflexivity|]. destruct (truthy p); [|reflexivity]. unfold tab_ref. rewrite P. cbn [rbind].
    destruct (TB p) as [-> [-> ->]]. cbn [rbind]. destruct (rw_tabs w); reflexivity.
  - split; auto. split; [apply good_snoc_rtd; auto|]. exists (List.length (rw_heap w)), (vsym (type_name k)), VFalse, VTrue, VTrue, VFalse, (map vsym (own k)). split; auto.
    split; [unfold h'; rewrite nth_error_app2, Nat.sub_diag by auto; reflexivity|]. apply map_length.
Qed.
(** The prelude defines the types: they are six different types, the last five derived
    from the first. *)
Theorem C63_types procs w : good (rw_heap w) -> (forall v, tab_equal (rw_tabs w) v = None /\ tab_hash (rw_tabs w) v = None /\ tab_writer (rw_tabs w) v = None) ->
  exists l w', boot procs w = Some (l, w') /\ good (rw_heap w') /\ exn_types (type_of l) (rw_heap w').
Proof.
  intros G TB. unfold boot. destruct (def_ok procs w VFalse KExn G TB (or_introl eq_refl)) as [h1 [E1 [H1 [G1 D1]]]]. rewrite E1. set (e := VPtr (List.length (rw_heap w))) in *.
  assert (R : forall h, descriptor h e VFalse 2 -> rtdp h e = true) by (intros h D; apply (descr_length _ _ _ _ D)).
  destruct (def_ok procs (RW h1 (rw_tabs w)) e KArg G1 TB (or_intror (R _ D1))) as [h2 [E2 [H2 [G2 D2]]]]. rewrite E2. cbn [rw_heap rw_tabs] in *.
  assert (K2 : rkept h1 h2) by (rewrite H2; apply rkept_snoc). assert (B2 := descriptor_kept _ _ _ _ _ K2 D1).
  destruct (def_ok procs (RW h2 (rw_tabs w)) e KArity G2 TB (or_intror (R _ B2))) as [h3 [E3 [H3 [G3 D3]]]]. rewrite E3. cbn [rw_heap rw_tabs] in *.
  assert (K3 : rkept h2 h3) by (rewrite H3; apply rkept_snoc). assert (B3 := descriptor_kept _ _ _ _ _ K3 B2).
  destruct (def_ok procs (RW h3 (rw_tabs w)) e KRange G3 TB (or_intror (R _ B3))) as [h4 [E4 [H4 [G4 D4]]]]. rewrite E4. cbn [rw_heap rw_tabs] in *.
  assert (K4 : rkept h3 h4) by (rewrite H4; apply rkept_snoc). assert (B4 := descriptor_kept _ _ _ _ _ K4 B3).
  destruct (def_ok procs (RW h4 (rw_tabs w)) e KMissing G4 TB (or_intror (R _ B4))) as [h5 [E5 [H5 [G5 D5]]]]. rewrite E5. cbn [rw_heap rw_tabs] in *.
  assert (K5 : rkept h4 h5) by (rewrite H5; apply rkept_snoc). assert (B5 := descriptor_kept _ _ _ _ _ K5 B4).
  destruct (def_ok procs (RW h5 (rw_tabs w)) e KSyntax G5 TB (or_intror (R _ B5))) as [h6 [E6 [H6 [G6 D6]]]]. rewrite E6. cbn [rw_heap rw_tabs] in *.
  assert (K6 : rkept h5 h6) by (rewrite H6; apply rkept_snoc). assert (B6 := descriptor_kept _ _ _ _ _ K6 B5).
  eexists _, _. split; [reflexivity|]. cbn [rw_heap]. split; auto. constructor.
  - exact B6.
  - intros k NK. destruct k; [contradiction| | | | |]; cbn [type_of nth]; eauto 8 using descriptor_kept.
  - assert (L1 : List.length h1 = S (List.length (rw_heap w))) by (rewrite H1, app_length; cbn; lia). assert (L2 : List.length h2 = S (List.length h1)) by (rewrite H2, app_length; cbn; lia).
    assert (L3 : List.length h3 = S (List.length h2)) by (rewrite H3, app_length; cbn; lia). assert (L4 : List.length h4 = S (List.length h3)) by (rewrite H4, app_length; cbn; lia).
    assert (L5 : List.length h5 = S (List.length h4)) by (rewrite H5, app_length; cbn; lia). unfold e. intros j k. destruct j, k; cbn [type_of nth]; intros Q; auto; exfalso; injection Q; lia.
Qed.
(** They stay the types whatever programs do with records and other objects. *)
Theorem C63_types_stay procs T w ops : good (rw_heap w) -> exn_types T (rw_heap w) ->
  good (rw_heap (snd (rrun procs w ops))) /\ exn_types T (rw_heap (snd (rrun procs w ops))).
Proof. intros G X. destruct (run_kept procs ops w G) as [G1 K]. split; auto. eapply types_kept; eauto. Qed.

(** ** Examples *)
Definition ex_procs (v : val) : bool := false.
Definition ex_disp (h : heap) (v : val) : list byte :=
  match v with
  | VSym n => n
  | VFix 1 => s2b "1" | VFix 3 => s2b "3" | VFix 4 => s2b "4" | VFix 7 => s2b "7" | VFix _ => s2b "n"
  | VFalse => s2b "#f"
  | VPtr l => match nth_error h l with Some (CStr b) => cstr b | _ => s2b "#<object>" end
  | _ => s2b "?"
  end.
Definition ex_boot : list val * rworld := match boot ex_procs rworld0 with Some x => x | None => ([], rworld0) end.
Definition ex_T : kind -> val := type_of (fst ex_boot).
(** After the prelude: six types, then strings, pairs (the arity 1, 3 or at least 4) and a
    cyclic list *)
Definition ex_state : xst :=
  XS (snd (rrun ex_procs (snd ex_boot) [RElse (CStr (s2b "bad thing")); RElse (CStr (s2b "")); RElse (CPair (VFix 4) VFalse); RElse (CPair (VFix 3) (VPtr 8)); RElse (CPair (VFix 1) (VPtr 9));
        RElse (CPair (VFix 1) (VPtr 11))])) [mkport false true (mkstream [] 0)].
Example C63_ex_ready : ready ex_T ex_state /\ out_port (xps ex_state) 0 [].
Proof.
  split.
  - assert (G0 : good (rw_heap rworld0)) by (split; cbn; intros [|]; discriminate).
    destruct (C63_types ex_procs rworld0 G0) as [l [w' [E [G X]]]]; [intros; cbn; auto|]. assert (EB : ex_boot = (l, w')) by (unfold ex_boot; rewrite E; auto).
    unfold ex_state, ready, xh. cbn [xw]. unfold ex_T. rewrite EB. cbn [fst snd]. apply C63_types_stay; auto.
  - eexists. split; [reflexivity|]. cbn. auto.
Qed.
Example C63_ex_values : text (xh ex_state) (VPtr 6) (s2b "bad thing") /\ text (xh ex_state) (VPtr 7) [] /\ arity_val (xh ex_state) (VPtr 10) /\ ~ arity_val (xh ex_state) (VPtr 11) /\
  named (VSym (s2b "f")) /\ ~ named (VFix 1) /\ int_val (VFix 1).
Proof.
  split; [|split; [|split; [|split; [|split; [|split]]]]].
  - exists 6, (s2b "bad thing"). auto.
  - exists 7, []. auto.
  - right. exists 1%Z, [3; 4]%Z, true. split; [|cbn; lia]. eapply CNext; [reflexivity|]. eapply CNext; [reflexivity|]. apply CMore. reflexivity.
  - intros A. destruct (arityp_ok (xh ex_state) (VPtr 11)) as [b [E B]]. apply B in A. vm_compute in E. injection E as <-. discriminate.
  - right. left. eauto.
  - intros [H|[[n H]|[n [i H]]]]; discriminate.
  - exists 1%Z. auto.
Qed.
(** what the default handler prints *)
Definition ex_printed (r : xres val) : option (list byte) :=
  match r with
  | XRaise v s => match handled ex_procs ex_disp ex_disp ex_T 0 50 v s with XExit 1 s' => match xps s' with p :: _ => Some (firstn (pos (strm p)) (data (strm p))) | [] => None end | _ => None end
  | _ => None
  end.
Example C63_ex_error : ex_printed (error ex_procs ex_disp ex_disp ex_T (VSym (s2b "f")) (VPtr 6) [VFix 7] ex_state) = Some (s2b "f: bad thing" ++ [LF] ++ s2b "  argument: 7" ++ [LF]) /\
  ex_printed (error ex_procs ex_disp ex_disp ex_T VFalse (VPtr 6) [] ex_state) = Some (s2b "error: bad thing" ++ [LF]) /\
  ex_printed (error ex_procs ex_disp ex_disp ex_T (VFix 3) (VPtr 6) [] ex_state) = Some (s2b "error: contract violation" ++ [LF] ++ s2b "  expected: symbol? or string? or #f" ++ [LF] ++ s2b "  given: 3" ++ [LF]).
Proof. vm_compute. auto. Qed.
Example C63_ex_arity : ex_printed (raise_arity_error ex_procs ex_T (VSym (s2b "f")) (VPtr 10) (VFix 7) ex_state) =
  Some (s2b "f: arity mismatch" ++ [LF] ++ s2b "  expected: 1, 3, at least 4" ++ [LF] ++ s2b "  given: 7" ++ [LF]).
Proof. vm_compute. auto. Qed.
Example C63_ex_range : ex_printed (raise_range_error ex_procs ex_disp ex_disp ex_T (VSym (s2b "f")) (VPtr 6) (VPtr 7) (VFix 1) (VFix 3) (VFix 7) ex_state) =
  Some (s2b "f: index out of bounds" ++ [LF] ++ s2b "  range: [1, 3)" ++ [LF] ++ s2b "  index: 7" ++ [LF] ++ s2b "  in: bad thing" ++ [LF]).
Proof. vm_compute. auto. Qed.
(** a cyclic arity: the hypotheses of C63_cyclic_arity_refuted *)
Example C63_ex_cyclic : exists v s, make ex_procs ex_T KArity [VFalse; VPtr 6; VPtr 11; VFix 1] ex_state = XOk v s /\ ready ex_T s /\ out_port (xps s) 0 [] /\
  exception ex_T (xh s) KArity v [VFalse; VPtr 6; VPtr 11; VFix 1] /\ nth_error (xh s) 11 = Some (CPair (VFix 1) (VPtr 11)).
Proof.
  destruct C63_ex_ready as [R OP]. destruct (make_ok ex_procs ex_T KArity [VFalse; VPtr 6; VPtr 11; VFix 1] ex_state R eq_refl) as [s [E [H [P R']]]].
  eexists _, s. split; [exact E|]. split; auto. split; [rewrite P; auto|]. split; [|rewrite H; reflexivity]. apply exc_self; [apply R'|]. eexists. split; [reflexivity|]. split; [rewrite H; reflexivity|discriminate].
Qed.
(** the hypotheses of C63_always_exits: an arity exception whose arity is no arity *)
Example C63_ex_reportable : exists v s, make ex_procs ex_T KArity [VFalse; VPtr 6; VTrue; VFix 1] ex_state = XOk v s /\ ready ex_T s /\ reportable ex_T (xh s) v /\
  ex_printed (XRaise v s) = Some (s2b "error: bad thing" ++ [LF] ++ s2b "  expected: cdr: contract violation" ++ [LF] ++ s2b "  expected: pair?" ++ [LF] ++ s2b "  given: ?" ++ [LF]).
Proof.
  destruct C63_ex_ready as [R OP]. destruct (make_ok ex_procs ex_T KArity [VFalse; VPtr 6; VTrue; VFix 1] ex_state R eq_refl) as [s [E [H [P R']]]].
  eexists _, s. split; [exact E|]. split; auto. split.
  - intros fs e [r [[l [EL [N _]]] _]] NE. injection EL as <-. rewrite H, nth_error_app2, Nat.sub_diag in N by auto. injection N as _ <-. injection NE as <-. exists []. apply CellsEnd. auto.
  - set (r := make ex_procs ex_T KArity [VFalse; VPtr 6; VTrue; VFix 1] ex_state) in E. vm_compute in r. subst r. injection E as <-. vm_compute. reflexivity.
Qed.

Print Assumptions C63_argument_error.
Print Assumptions C63_argument_error_refused.
Print Assumptions C63_error.
Print Assumptions C63_error_refused.
Print Assumptions C63_errorf.
Print Assumptions C63_errorf_refused.
Print Assumptions C63_arity_error.
Print Assumptions C63_arity_error_refused.
Print Assumptions C63_range_error.
Print Assumptions C63_range_error_refused.
Print Assumptions C63_missing_error.
Print Assumptions C63_missing_error_refused.
Print Assumptions C63_missing_error_name_refuted.
Print Assumptions C63_syntax_error.
Print Assumptions C63_syntax_error_refused.
Print Assumptions C63_kinds.
Print Assumptions C63_report.
Print Assumptions C63_always_exits.
Print Assumptions C63_cyclic_arity_refuted.
Print Assumptions C63_error_to_exit.
Print Assumptions C63_types.
Print Assumptions C63_types_stay.
