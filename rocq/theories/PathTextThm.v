(** C81: what the path procedures of the library do when their text is read, compiled and
    evaluated.  The texts are in PathText.v, the specification ([is_path_list] and so on) in
    the first part of PathTextProofs.v. *)
From Coq Require Import ZArith NArith Bool Ascii String List Arith Lia.
From Verif Require Import Base Heap HeapM Ast Reader Sem Check Lists SimLemmas Path PathThm LibText LibBoot LibTextProofs LibTextRun LibTextThm
  PathText PathTextProofs PathTextRun.
Import ListNotations.
Local Open Scope list_scope.

(** The texts are the lines 22-25 of the boot file, and are read to their end. *)
Theorem C81_texts : path_texts = firstn 4 (skipn 21 boot_min).
Proof. vm_compute. reflexivity. Qed.
Theorem C81_texts_read : Forall (fun t => exists o, read_object 400 (list_ascii_of_string t) = ROk o []) path_texts.
Proof. unfold path_texts. repeat constructor; eexists; vm_compute; reflexivity. Qed.

(** What the texts rely on, in a store where they have been evaluated. *)
Record path_relies (prim : N -> list val -> heap -> option presult) (complaint : val -> val -> err) (s : store) : Prop := PathRelies {
  pr_string : has path_names s "string?" (is_string prim);
  pr_length : has path_names s "string-length" (is_string_length prim);
  pr_ref : has path_names s "string-ref" (is_string_ref prim);
  pr_substring : has path_names s "substring" (is_substring prim);
  pr_append : has path_names s "string-append" (is_string_append prim);
  pr_eq : has path_names s "eq?" (is_same_char prim);
  pr_same : has path_names s "=" (is_same_number prim);
  pr_more : has path_names s ">" (is_more prim);
  pr_sum : has path_names s "+" (is_sum prim);
  pr_minus : has path_names s "-" (is_minus prim);
  pr_void : has path_names s "void" (is_void prim);
  pr_complaint : has path_names s "raise-argument-error" (is_complaint prim complaint);
  pr_null : has path_names s "null?" (is_null prim);
  pr_pair : has path_names s "pair?" (is_pair prim);
  pr_cons : has path_names s "cons" (is_cons prim);
  pr_list : has path_names s "list" (is_list1 prim);
  pr_apply : has path_names s "apply" (is_apply prim);
  pr_car : has path_names s "car" (is_car prim complaint);
  pr_cdr : has path_names s "cdr" (is_cdr prim complaint);
  pr_reverse : has path_names s "reverse" (is_reverse prim complaint) }.
Record path_ready (prim : N -> list val -> heap -> option presult) (lit : obj -> val) (complaint : val -> val -> err) (s : store) : Prop := PathReady {
  pd_literals : literals lit;
  pd_chars : forall c, lit (OChar c) = VChar c;
  pd_loaded : Forall (loaded lit s) path_texts;
  pd_relies : path_relies prim complaint s }.

Section Ready.
  Variable prim : N -> list val -> heap -> option presult.
  Variable lit : obj -> val.
  Variable complaint : val -> val -> err.
  Variable s : store.
  Hypothesis RD : path_ready prim lit complaint s.
  Lemma ready_loaded t : In t path_texts -> loaded lit s t.
  Proof. pose proof (pd_loaded _ _ _ _ RD) as F. rewrite Forall_forall in F. auto. Qed.
  Ltac text := apply ready_loaded; unfold path_texts; cbn [In]; repeat (first [left; reflexivity|right]).
  Ltac lib := first [apply incl_refl|apply (pd_literals _ _ _ _ RD)|apply (pd_chars _ _ _ _ RD)|text|apply (pd_relies _ _ _ _ RD)|eassumption].
  Theorem C81_is_absolute : has path_names s "is-absolute-path?" (is_is_absolute prim).
  Proof. eapply (is_absolute_ok path_names) with (lit := lit); lib. Qed.
  Theorem C81_path_list : has path_names s "path->list" (is_path_list prim complaint lit).
  Proof. eapply (path_list_ok path_names) with (lit := lit); lib. Qed.
  Theorem C81_build_path : has path_names s "build-path" (is_build_path prim lit).
  Proof. eapply (build_path_ok path_names) with (lit := lit); lib. Qed.
  Theorem C81_split_path : has path_names s "split-path" (is_split_path prim complaint lit).
  Proof. eapply (split_path_ok path_names) with (lit := lit); first [exact C81_path_list|exact C81_build_path|lib]. Qed.
  Lemma path_name_in x : existsb (String.eqb x) path_names = true -> In x path_names.
  Proof. intros H. apply existsb_exists in H. destruct H as (y & I & E). apply String.eqb_eq in E. now subst. Qed.

  (** build-path on the elements of a path gives the path back, unless it ends in a slash
      that follows something else. *)
  Lemma joined_build ps : forall a acc, a <> [] -> exists qs, build_loop ps (a :: acc) = Some qs /\ List.concat qs = joined (List.concat (rev (a :: acc))) ps.
  Proof.
    induction ps as [|p ps IH]; intros a acc NA; [eexists; split; reflexivity|]. destruct p as [|c p]; [exact (IH a acc NA)|].
    cbn [build_loop List.length Nat.eqb joined]. destruct (exists_last NA) as (q & d & E).
    assert (EA : ends_slash a = Some (terminated a)). { subst a. rewrite ends_slash_last. unfold terminated. now rewrite rev_app_distr. }
    assert (TA : terminated (List.concat (rev (a :: acc))) = terminated a). { cbn [rev]. rewrite concat_app. cbn [List.concat]. rewrite app_nil_r. now apply terminated_app. }
    rewrite EA, TA. destruct (terminated a).
    - destruct (IH (c :: p) (a :: acc) ltac:(discriminate)) as (qs & Q1 & Q2). exists qs. split; auto. rewrite Q2. f_equal.
      cbn [rev]. rewrite !concat_app. cbn [List.concat]. now rewrite !app_nil_r.
    - destruct (IH (c :: p) ([slash] :: a :: acc) ltac:(discriminate)) as (qs & Q1 & Q2). exists qs. split; auto. rewrite Q2. f_equal.
      cbn [rev]. rewrite !concat_app. cbn [List.concat]. rewrite !app_nil_r, <- !app_assoc. reflexivity.
  Qed.
  Theorem C81_joined_elements t x xs : elements t (x :: xs) -> ~ trailing_separator t -> joined x xs = t.
  Proof.
    intros EL NT. assert (NE : t <> []) by (intros ->; inversion EL; subst; try congruence; destruct x; discriminate || congruence).
    destruct (C47_build_path_undoes_path_list t NE NT) as (ys & P & A). destruct (path_list_elements t) as (zs & P2 & EL2).
    rewrite P in P2. injection P2 as <-. rewrite (elements_fun _ _ EL2 _ EL) in A. cbn [apply_build_path] in A. unfold build_path in A.
    destruct (joined_build xs x [] (proj1 (elements_first _ _ _ EL))) as (qs & Q1 & Q2). rewrite Q1 in A. injection A as A. rewrite Q2 in A.
    cbn in A. now rewrite app_nil_r in A.
  Qed.

  (** The slashes in the results of path->list are one and the same string, the literal in
      the procedure's own text: what a program makes of it with string-set! is what
      path->list returns from then on. *)
  Theorem C81_fresh_slash_refuted z v :
    later path_names s z -> good z -> text_at (heap_of z) v (list_ascii_of_string "/a") -> text_at (heap_of z) (lit (OStr [])) [] ->
    text_at (heap_of z) (lit (OStr [slash])) (list_ascii_of_string "x") ->
    exists f w ws e d z', glob_ref (Id "path->list") (glob_of z) = Some f /\ apply prim z f [v] (RVals [w]) z' /\
      list_at (heap_of z') w ws /\ ws = [e; d] /\
      text_at (heap_of z') e (list_ascii_of_string "x") /\ text_at (heap_of z') d (list_ascii_of_string "a").
  Proof.
    intros LT GD T LE LX. destruct C81_path_list as (f & GF & NF & H). destruct (H z LT GD) as [H1 _].
    assert (EL : elements (list_ascii_of_string "/a") [[slash]; list_ascii_of_string "a"]).
    { apply (el_slash (list_ascii_of_string "a") [list_ascii_of_string "a"]). apply el_last; [discriminate|]. intros [X|[]]. discriminate X. }
    destruct (H1 v _ _ T EL LE) as (w & ws & z' & A & G & LW & F).
    inversion F as [|e ? r ? E1 F1]; subst. inversion F1 as [|d ? r1 ? E2 F2]; subst. inversion F2; subst.
    exists f, w, [e; d], e, d, z'. rewrite (proj2 LT) by (apply path_name_in; reflexivity). split; auto. split; auto. split; auto. split; auto. split.
    - destruct E1 as [[_ ->]|[N _]]; [|congruence]. eapply grows_text; eauto.
    - destruct E2 as [[X _]|[_ X]]; [discriminate X|exact X].
  Qed.
End Ready.

(** Parts of a path that are kept together by a separator. *)
Example joined_example :
  joined (list_ascii_of_string "/usr") [list_ascii_of_string "lib/"; []; list_ascii_of_string "minim"] = list_ascii_of_string "/usr/lib/minim" /\
  elements (list_ascii_of_string "/usr//a/") [[slash]; list_ascii_of_string "usr"; [slash]; list_ascii_of_string "a"].
Proof.
  split; [reflexivity|]. apply (el_slash (list_ascii_of_string "usr//a/")).
  apply (el_sep (list_ascii_of_string "usr") (list_ascii_of_string "/a/")); [discriminate|cbn; intuition discriminate|].
  apply (el_slash (list_ascii_of_string "a/")). apply (el_sep (list_ascii_of_string "a") []); [discriminate|cbn; intuition discriminate|constructor].
Qed.

(** ** A store that meets the hypotheses *)
Definition px_text (h : heap) (v : val) : option (list byte) :=
  match v with VPtr l => match nth_error h l with Some (CStr t) => Some t | _ => None end | _ => None end.
Definition px_new (t : list byte) (h : heap) : presult := PrimVal (VPtr (List.length h)) (h ++ [CStr t]).
Fixpoint px_texts (h : heap) (vs : list val) : list byte :=
  match vs with [] => [] | v :: r => match px_text h v with Some t => t | None => [] end ++ px_texts h r end.
Definition px_prim (n : N) (vs : list val) (h : heap) : option presult :=
  match n, vs with
  | 0%N, [v] => Some (PrimVal (of_bool (stringp h v)) h)
  | 1%N, [v] => match px_text h v with Some t => Some (PrimVal (VFix (Z.of_nat (List.length t))) h) | None => Some (PrimErr (EArg "string-length" v) h) end
  | 2%N, [v; VFix z] =>
      match px_text h v with
      | Some t => if (z <? 0)%Z then Some (PrimErr (EArg "string-ref" v) h)
                  else match nth_error t (Z.to_nat z) with Some c => Some (PrimVal (VChar c) h) | None => None end
      | None => None
      end
  | 3%N, [v; VFix i; VFix j] =>
      match px_text h v with Some t => Some (px_new (firstn (Z.to_nat j - Z.to_nat i) (skipn (Z.to_nat i) t)) h) | None => None end
  | 4%N, [v; l] => match px_text h v with Some t => Some (px_new (t ++ px_texts h (fst (chain (List.length h) h l))) h) | None => None end
  | 5%N, [VChar a; VChar b] => Some (PrimVal (of_bool (Ascii.eqb a b)) h)
  | 6%N, [VFix a; VFix b] => Some (PrimVal (of_bool (Z.eqb a b)) h)
  | 7%N, [VFix a; VFix b] => Some (PrimVal (of_bool (Z.ltb b a)) h)
  | 8%N, [VFix a; VFix b] => Some (PrimVal (VFix (a + b)) h)
  | 9%N, [VFix a; VFix b] => Some (PrimVal (VFix (a - b)) h)
  | 10%N, [] => Some (PrimVal VVoid h)
  | 11%N, [who; _; v] => Some (PrimErr (EArg (ex_text who) v) h)
  | 12%N, [v] => Some (PrimVal (of_bool (nullp v)) h)
  | 13%N, [v] => Some (PrimVal (of_bool (pairp h v)) h)
  | 14%N, [a; d] => Some (PrimVal (VPtr (List.length h)) (h ++ [CPair a d]))
  | 15%N, [v] => Some (ex_new_list [v] h)
  | 17%N, [v] => Some (match pair_at h v with Some (a, d) => PrimVal a h | None => PrimErr (EArg "car" v) h end)
  | 18%N, [v] => Some (match pair_at h v with Some (a, d) => PrimVal d h | None => PrimErr (EArg "cdr" v) h end)
  | 19%N, [v] => Some (let '(xs, t) := chain (List.length h) h v in
                       if nullp t then ex_new_list (rev xs) h else PrimErr (EArg "reverse" v) h)
  | 20%N, [VPtr l; VFix i; VChar c] =>
      match nth_error h l with Some (CStr b) => Some (PrimVal VVoid (set_nth l (CStr (set_nth (Z.to_nat i) c b)) h)) | _ => None end
  | 21%N, [VFix z] => Some (px_new (repeat "a"%char (Z.to_nat z)) h)
  | 22%N, [VFix a; VFix b] => Some (PrimVal (of_bool (Z.leb a b)) h)
  | 23%N, [v] => Some (PrimVal (of_bool (match v with VFix z => (0 <=? z)%Z | _ => false end)) h)
  | 24%N, _ => Some (PrimErr (EOther "range" vs) h)
  | _, _ => None
  end.
Definition px_names : list string := path_base ++ ["string-set!"; "make-string"; "<="; "non-negative-integer?"; "raise-range-error"]%string.
Definition px_arities : list nat := [1; 1; 2; 3; 2; 2; 2; 2; 2; 2; 0; 3; 1; 1; 2; 1; 0; 1; 1; 1; 3; 1; 2; 1; 6].
(** (lambda (s . ss) (join s ss)), for a procedure of two arguments. *)
Definition px_append : sproc :=
  PClo [(Formals [Id "s"] (Some (Id "ss")), [EApp (EConst (VPtr 6)) [EVar (Id "s"); EVar (Id "ss")]])] [].
Definition px_lit (o : obj) : val :=
  match o with
  | ONull => VNull | OFalse => VFalse | OFix z => VFix z | OSym n => VSym n | OChar c => VChar c
  | OStr [] => VPtr 0 | OStr ["/"%char] => VPtr 1 | _ => VVoid
  end.
Definition px_before : store :=
  let s := ex_install 0 (combine px_names px_arities) (Store [CStr []; CStr [slash]] [] [] []) in
  let '(v, s1) := new_proc px_append s in
  let '(w, s2) := new_proc PApply (set_glob (Id "string-append") v s1) in
  set_glob (Id "apply") w s2.

Lemma px_good : good px_before.
Proof.
  intros l p H. assert (K : forall ps, proc_ref l ps = Some p -> In l (map fst ps)).
  { induction ps as [|[k q] ps IH]; cbn; [discriminate|]. destruct (Nat.eqb_spec k l); auto. }
  apply K in H. revert H. vm_compute. intuition lia.
Qed.
Lemma px_shaped : Forall2 (shaped px_lit) path_texts path_defined.
Proof.
  unfold path_texts, path_defined.
  repeat match goal with
  | |- Forall2 _ [] [] => constructor
  | |- Forall2 _ (?t :: _) _ =>
      constructor; [let e := eval vm_compute in (code_of px_lit t) in
        match e with EDefine _ (ELam ?fm ?body) => exists fm, body; vm_cast_no_check (eq_refl e) end|]
  end.
Qed.
Lemma px_once : NoDup path_defined.
Proof. apply distinct_nodup. reflexivity. Qed.
Lemma px_returns s f n vs v h :
  proc_at f (procs_of s) = Some (PPrim n (List.length vs)) -> List.length vs <= 6 -> px_prim n vs (heap_of s) = Some (PrimVal v h) ->
  extends (heap_of s) h -> apply px_prim s f vs (RVals [v]) (set_heap h s) /\ grows s (set_heap h s).
Proof. intros P L E X. split; [eapply ApPrim; eauto|now apply grows_set_heap]. Qed.
Lemma px_raises s f n vs e :
  proc_at f (procs_of s) = Some (PPrim n (List.length vs)) -> List.length vs <= 6 -> px_prim n vs (heap_of s) = Some (PrimErr e (heap_of s)) ->
  raises px_prim s f vs (ErrPrim e).
Proof. intros P L E. exists (set_heap (heap_of s) s). split; [eapply ApPrimErr; eauto|apply grows_set_heap, extends_refl]. Qed.
Lemma px_value s f n vs v :
  proc_at f (procs_of s) = Some (PPrim n (List.length vs)) -> List.length vs <= 6 -> px_prim n vs (heap_of s) = Some (PrimVal v (heap_of s)) ->
  returns px_prim s f vs v.
Proof. intros P L E. exists (set_heap (heap_of s) s). eapply px_returns; eauto. apply extends_refl. Qed.
Lemma px_list s f n vs xs :
  proc_at f (procs_of s) = Some (PPrim n (List.length vs)) -> List.length vs <= 6 -> px_prim n vs (heap_of s) = Some (ex_new_list xs (heap_of s)) ->
  returns_list px_prim s f vs xs.
Proof.
  intros P L E. unfold ex_new_list in E. pose proof (new_list_at xs (heap_of s)) as NL. destruct (new_list xs (heap_of s)) as [v h] eqn:K.
  exists v, (set_heap h s). cbn in NL. destruct (px_returns s f n vs v h P L E) as [A B]; auto. unfold new_list in K. injection K as _ <-. apply extends_app.
Qed.
Lemma px_new_text s f n vs t :
  proc_at f (procs_of s) = Some (PPrim n (List.length vs)) -> List.length vs <= 6 -> px_prim n vs (heap_of s) = Some (px_new t (heap_of s)) ->
  ~ In NUL t -> (Z.of_nat (List.length t) < 2 ^ 62)%Z -> returns_text px_prim s f vs t.
Proof.
  intros P L E N B. destruct (px_returns s f n vs _ _ P L E (extends_app _ _)) as [A G]. exists (VPtr (List.length (heap_of s))), (set_heap (heap_of s ++ [CStr t]) s).
  split; auto. split; auto. exists (List.length (heap_of s)). split; auto. split; auto. cbn. now rewrite nth_error_app2, Nat.sub_diag by lia.
Qed.
Lemma px_text_is h v t : text_at h v t -> px_text h v = Some t.
Proof. intros (l & -> & E & _). cbn. now rewrite E. Qed.
Lemma px_texts_are h vs ts : Forall2 (text_at h) vs ts -> px_texts h vs = List.concat ts /\ ~ In NUL (List.concat ts).
Proof.
  induction 1 as [|v t vs ts T F [IH1 IH2]]; cbn; [auto|]. rewrite (px_text_is _ _ _ T), IH1. split; auto. intros I. apply in_app_or in I.
  destruct T as (l & _ & _ & N & _). tauto.
Qed.
Lemma px_append_ok s l :
  proc_at (VPtr l) (procs_of s) = Some px_append -> proc_at (VPtr 6) (procs_of s) = Some (PPrim 4 2) -> is_string_append px_prim s (VPtr l).
Proof.
  intros P Q v vs t ts T F LN. assert (NV := text_bound _ _ _ T).
  assert (OUT : runap px_prim s (VPtr l) (v :: vs) (fun o s' => grows s s' /\ exists w, o = RVals [w] /\ text_at (heap_of s') w (List.concat (t :: ts)))).
  { eapply runap_rest1; [exact P|exact NV|]. intros s1 b c k G C1 C2 LK. apply runseq_one.
    apply (grows_text _ _ _ _ G) in T. apply (grows_texts _ _ _ _ G) in F. apply (grows_proc _ _ _ _ G) in Q.
    destruct (px_texts_are _ _ _ F) as [E1 E2].
    destruct (px_new_text s1 (VPtr 6) 4 [v; k] (List.concat (t :: ts)) Q ltac:(cbn; lia)) as (w & s2 & A & G2 & T2).
    - cbn [px_prim]. rewrite (px_text_is _ _ _ T), (chain_list _ _ _ LK). cbn [fst]. now rewrite E1.
    - cbn. intros I. apply in_app_or in I. destruct T as (? & _ & _ & N & _). tauto.
    - exact LN.
    - exists (RVals [w]), s2. split; [|split; [eapply grows_trans; eauto|eauto]]. eapply EvApp.
      + apply E1Val. constructor.
      + eapply EaCons; [apply E1Val; eapply EvLocal; [reflexivity|apply C1|apply C1]|].
        eapply EaCons; [apply E1Val; eapply EvLocal; [reflexivity|apply C2|apply C2]|]. constructor.
      + exact A. }
  destruct OUT as (o & s' & A & G & w & -> & TW). exists w, s'. auto.
Qed.
Lemma px_apply_ok s l : proc_at (VPtr l) (procs_of s) = Some PApply -> is_apply px_prim s (VPtr l).
Proof.
  intros P g k vs v s' LK A. change [g; k] with (g :: [] ++ [k]). eapply ApApply; [exact P| |exact LK|exact A].
  intros E. inversion A; subst; congruence.
Qed.
Lemma px_base_undefined x : In x path_base -> ~ In x path_defined.
Proof.
  intros I J. assert (E : forallb (fun y => negb (existsb (String.eqb y) path_defined)) path_base = true) by reflexivity.
  rewrite forallb_forall in E. specialize (E x I). apply negb_true_iff in E.
  assert (T : existsb (String.eqb x) path_defined = true) by (apply existsb_exists; exists x; split; auto; apply String.eqb_refl). congruence.
Qed.
(** What the store has before the texts are evaluated, it has afterwards. *)
Lemma px_has s x l (B : store -> val -> Prop) :
  loads px_prim px_lit px_before path_texts s -> existsb (String.eqb x) path_base = true ->
  glob_ref (Id x) (glob_of px_before) = Some (VPtr l) ->
  (forall z, good z -> (forall k p, proc_ref k (procs_of px_before) = Some p -> proc_ref k (procs_of z) = Some p) -> B z (VPtr l)) -> has path_names s x B.
Proof.
  intros L I E H.
  destruct (loads_all px_prim px_lit (fun _ _ => ErrNotProc VNull) (fun _ _ => ErrNotProc VNull) _ _ px_shaped px_once _ _ px_good L) as (_ & I2 & I3 & _).
  exists (VPtr l). split; [rewrite I3; auto; apply px_base_undefined; now apply existsb_in|]. split; [discriminate|]. intros z [L1 _] G. apply H; auto.
Qed.
Lemma px_relies s : loads px_prim px_lit px_before path_texts s -> path_relies px_prim ex_complaint s.
Proof.
  intros L. constructor; match goal with |- has _ _ ?x _ =>
    let g := eval vm_compute in (glob_ref (Id x) (glob_of px_before)) in
    match g with Some (VPtr ?l) => apply (px_has s x l); [exact L|reflexivity|vm_compute; reflexivity|intros z GD K];
      let p := eval vm_compute in (proc_ref l (procs_of px_before)) in
      match p with Some ?q => assert (P : proc_at (VPtr l) (procs_of z) = Some q) by (apply K; vm_compute; reflexivity) end end end.
  all: try solve [intros v; eapply px_value; [exact P|cbn; lia|reflexivity]
                 |intros a b; eapply px_value; [exact P|cbn; lia|reflexivity]
                 |intros a b _ _; eapply px_value; [exact P|cbn; lia|reflexivity]
                 |intros a b _ _ _; eapply px_value; [exact P|cbn; lia|reflexivity]].
  - intros v t T. eapply px_value; [exact P|cbn; lia|]. cbn [px_prim]. now rewrite (px_text_is _ _ _ T).
  - split.
    + intros v t n c T E. eapply px_value; [exact P|cbn; lia|]. cbn [px_prim]. rewrite (px_text_is _ _ _ T).
      destruct (Z.ltb_spec (Z.of_nat n) 0); [lia|]. now rewrite Nat2Z.id, E.
    + intros v t n T E. eexists. eapply px_raises; [exact P|cbn; lia|]. cbn [px_prim]. rewrite (px_text_is _ _ _ T).
      destruct (Z.ltb_spec n 0); [reflexivity|lia].
  - intros v t i j T LE LJ. eapply px_new_text; [exact P|cbn; lia| | |].
    + cbn [px_prim]. rewrite (px_text_is _ _ _ T), !Nat2Z.id. reflexivity.
    + destruct T as (l & _ & _ & N & _). intros I. apply N.
      rewrite <- (firstn_skipn i t). apply in_or_app. right. rewrite <- (firstn_skipn (j - i) (skipn i t)). apply in_or_app. now left.
    + destruct T as (l & _ & _ & _ & B). rewrite firstn_length, skipn_length. lia.
  - eapply px_append_ok; [exact P|apply K; vm_compute; reflexivity].
  - eapply px_value; [exact P|cbn; lia|reflexivity].
  - intros who what v. eapply px_raises; [exact P|cbn; lia|reflexivity].
  - intros a d. exists (VPtr (List.length (heap_of z))), (set_heap (heap_of z ++ [CPair a d]) z).
    destruct (px_returns z _ 14 [a; d] _ _ P ltac:(cbn; lia) eq_refl (extends_app _ _)) as [A B]. split; auto. split; auto.
    cbn. now rewrite nth_error_app2, Nat.sub_diag by lia.
  - intros v. eapply px_list; [exact P|cbn; lia|reflexivity].
  - now apply px_apply_ok.
  - split.
    + intros v a d E. eapply px_value; [exact P|cbn; lia|]. cbn [px_prim]. now rewrite E.
    + intros v N. eapply px_raises; [exact P|cbn; lia|]. cbn [px_prim]. now rewrite (no_pair_at _ _ N).
  - split.
    + intros v a d E. eapply px_value; [exact P|cbn; lia|]. cbn [px_prim]. now rewrite E.
    + intros v N. eapply px_raises; [exact P|cbn; lia|]. cbn [px_prim]. now rewrite (no_pair_at _ _ N).
  - split.
    + intros l xs H. eapply px_list; [exact P|cbn; lia|]. cbn [px_prim]. now rewrite (chain_list _ _ _ H).
    + intros v xs t R [T1 T2]. eapply px_raises; [exact P|cbn; lia|]. cbn [px_prim]. pose proof (no_pair_at _ _ T1) as E.
      rewrite (chain_reach _ _ _ _ R E) by (eapply reach_length; eauto). destruct t; auto; congruence.
Qed.
Example px_ready : exists s, loads px_prim px_lit px_before path_texts s /\ good s /\ path_ready px_prim px_lit ex_complaint s.
Proof.
  destruct (loads_some px_prim px_lit _ _ px_shaped px_before) as [s L]. exists s. split; auto.
  destruct (loads_all px_prim px_lit (fun _ _ => ErrNotProc VNull) (fun _ _ => ErrNotProc VNull) _ _ px_shaped px_once _ _ px_good L) as (G & _ & _ & F).
  split; auto. constructor; auto; [repeat split|]. now apply px_relies.
Qed.
(** (split-path "/usr/lib") and (build-path "/usr" "lib") in any later store that has these strings. *)
Example path_calls_example s z u v w :
  path_ready px_prim px_lit ex_complaint s -> later path_names s z -> good z ->
  text_at (heap_of z) (VPtr 0) [] -> text_at (heap_of z) (VPtr 1) [slash] ->
  text_at (heap_of z) u (list_ascii_of_string "/usr/lib") -> text_at (heap_of z) v (list_ascii_of_string "/usr") -> text_at (heap_of z) w (list_ascii_of_string "lib") ->
  exists f g, glob_ref (Id "build-path") (glob_of z) = Some f /\ returns_text px_prim z f [v; w] (list_ascii_of_string "/usr/lib") /\
    glob_ref (Id "split-path") (glob_of z) = Some g /\
    exists p d e z', apply px_prim z g [u] (RVals [p]) z' /\ pair_at (heap_of z') p = Some (d, e) /\
      text_at (heap_of z') d (list_ascii_of_string "/usr") /\ text_at (heap_of z') e (list_ascii_of_string "lib").
Proof.
  intros RD LT G L0 L1 TU TV TW. destruct (C81_build_path _ _ _ _ RD) as (f & F1 & F2 & F3). destruct (C81_split_path _ _ _ _ RD) as (g & G1 & G2 & G3).
  exists f, g. rewrite !(proj2 LT) by (apply path_name_in; reflexivity). split; auto. split; [|split; auto].
  - refine (proj1 (F3 z LT G) v [w] _ [list_ascii_of_string "lib"] TV _ _ L1 _); [now repeat constructor|left; discriminate|cbn; lia].
  - assert (EL : elements (list_ascii_of_string "/usr/lib") ([slash] :: [list_ascii_of_string "usr"] ++ [list_ascii_of_string "lib"])).
    { apply (el_slash (list_ascii_of_string "usr/lib")). apply (el_sep (list_ascii_of_string "usr") (list_ascii_of_string "lib")); [discriminate|cbn; intuition discriminate|].
      apply el_last; [discriminate|cbn; intuition discriminate]. }
    destruct (proj1 (proj2 (G3 z LT G)) u _ _ _ _ TU EL L0 L1) as (p & d & e & z' & A & GR & PA & TD & TE).
    exists p, d, e, z'. split; auto. split; auto. split; [exact TD|]. destruct TE as [[X _]|[_ X]]; [discriminate X|exact X].
Qed.

Print Assumptions C81_texts.
Print Assumptions C81_texts_read.
Print Assumptions C81_is_absolute.
Print Assumptions C81_path_list.
Print Assumptions C81_build_path.
Print Assumptions C81_split_path.
Print Assumptions C81_joined_elements.
Print Assumptions C81_fresh_slash_refuted.
Print Assumptions px_ready.
