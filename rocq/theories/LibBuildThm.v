(** C80: the boot file and the sources of the library. *)
From Coq Require Import ZArith NArith Bool Ascii String List Arith Lia.
From Verif Require Import Base Reader ReaderThm WriteThm LibRead StxCase Check Expand CheckThm ExpandProofs LibSource LibBoot LibBuild LibBuildProofs.
From Verif Require LibText.
Import ListNotations.
Local Open Scope string_scope.
Local Open Scope list_scope.

(** ** Every boot file *)

(** A boot file holds the definitions of the expanded modules, module after module and in
    their order, one on a line, but for the excluded ones; and when they are made of
    data that [write] prints faithfully, loading the file finds exactly these forms. *)
Theorem C80_boot_file f ms t :
  gen_boot f ms = Some t -> Forall (fun m => Forall symbol (snd m)) ms ->
  exists l : list (list obj * list obj),
    Forall2 (fun m p => load_module f (fst (fst m)) (snd (fst m)) = Some (fst p) /\ kept (snd m) (fst p) (snd p)) ms l /\
    t = flat_map (fun d => write d ++ ["010"%char]) (List.concat (map snd l)) /\
    (Forall (readable write_string false false) (List.concat (map snd l)) -> file_data t (List.concat (map snd l))).
Proof.
  intros G S.
  assert (X : exists l : list (list obj * list obj),
    Forall2 (fun m p => load_module f (fst (fst m)) (snd (fst m)) = Some (fst p) /\ kept (snd m) (fst p) (snd p)) ms l /\
    t = flat_map (fun d => write d ++ ["010"%char]) (List.concat (map snd l))).
  { revert t G. induction S as [|[[file sc] exclude] ms S _ IH]; cbn [gen_boot]; intros t G.
    - injection G as <-. exists []. split; auto.
    - destruct (load_module f file sc) as [es|] eqn:E; [|discriminate]. destruct (entries es) as [ds|] eqn:E2; [|discriminate].
      destruct (gen_boot f ms) as [k|]; [|discriminate]. injection G as <-. destruct (IH k eq_refl) as [l [F ->]].
      destruct (entries_kept exclude S es ds E2) as [q [K [W _]]]. exists ((es, q) :: l). split.
      + constructor; auto.
      + cbn [map List.concat snd]. rewrite flat_map_app, W. auto. }
  destruct X as [l [F ->]]. exists l. split; auto. split; auto. intros R.
  assert (Y := written_data _ R [] []). rewrite !app_nil_r in Y. apply Y. apply (FdEnd [] []). exists 1. reflexivity.
Qed.
(** What is in it: every definition that is not excluded, and nothing but definitions. *)
Theorem C80_kept exclude es ds : kept exclude es ds ->
  forall d, In d ds <-> In d es /\ exists n ns r, d = olist (sym "define-values" :: olist (n :: ns) :: r) /\ ~ In n exclude.
Proof.
  intros K d. split; [apply kept_define; auto|]. intros [I (n & ns & r & -> & N)]. eapply kept_complete; eauto.
Qed.
(** A file holds one list of forms. *)
Theorem C80_file_data_unique s ds es : file_data s ds -> file_data s es -> ds = es.
Proof. intros A B. eapply file_data_det; eauto. Qed.
(** A module expands to the same forms in every scope that has more names. *)
Theorem C80_more_scope f file sc sc' es : incl sc sc' -> load_module f file sc = Some es -> load_module f file sc' = Some es.
Proof. apply load_module_more. Qed.

(** ** boot.min *)

(** Modules with the texts of the library, and scopes that have the names they use. *)
Definition the_library (ms : list (list byte * list obj * list obj)) : Prop :=
  Forall2 (fun m x => fst (fst x) = text (fst m) /\ incl (map sym (snd m)) (snd (fst x)) /\ snd x = []) library ms.
Definition least : list (list byte * list obj * list obj) := map (fun m => (text (fst m), map sym (snd m), [])) library.
Definition boots (f : nat) (ms : list (list byte * list obj * list obj)) (b : list byte) : bool :=
  match gen_boot f ms with Some t => same_bytes t b | None => false end.
Lemma boots_eq f ms b : boots f ms b = true -> gen_boot f ms = Some b.
Proof. unfold boots. destruct (gen_boot f ms) as [t|]; [|discriminate]. intros E. apply same_bytes_eq in E. subst. auto. Qed.
Lemma least_boots : boots 1000 least (text boot_min) = true.
Proof. vm_compute. reflexivity. Qed.
Lemma gen_boot_more f l : forall ms ms', Forall2 (fun (m : list string * list string) x => fst (fst x) = text (fst m) /\ incl (map sym (snd m)) (snd (fst x)) /\ snd x = []) l ms' ->
  ms = map (fun m => (text (fst m), map sym (snd m), [])) l -> forall t, gen_boot f ms = Some t -> gen_boot f ms' = Some t.
Proof.
  intros ms ms' F. revert ms. induction F as [|m [[file sc] ex] l ms' (E1 & E2 & E3) F IH]; intros ms ->; auto.
  cbn [fst snd] in E1, E2, E3. subst file ex. cbn [map gen_boot]. intros t.
  destruct (load_module f (text (fst m)) (map sym (snd m))) as [es|] eqn:E; [|discriminate]. rewrite (load_module_more _ _ _ _ _ E2 E).
  destruct (entries es); [|discriminate]. specialize (IH _ eq_refl). destruct (gen_boot f (map _ l)) as [k|]; [|discriminate].
  rewrite (IH k eq_refl). auto.
Qed.
(** boot.min is, byte for byte, what gen-boot makes of the sources. *)
Theorem C80_boot_min ms : the_library ms -> gen_boot 1000 ms = Some (text boot_min).
Proof. intros F. exact (gen_boot_more 1000 library least ms F eq_refl (text boot_min) (boots_eq 1000 least (text boot_min) least_boots)). Qed.

Definition module_data (f : nat) (m : list string * list string) : option (list obj) :=
  match load_module f (text (fst m)) (map sym (snd m)) with
  | Some es => match entries es with Some ds => Some (map snd ds) | None => None end
  | None => None
  end.
Definition some_data (f : nat) (l : list (list string * list string)) : list obj := flat_map (fun m => match module_data f m with Some ds => ds | None => [] end) l.
Definition all_data (f : nat) (l : list (list string * list string)) : bool := forallb (fun m => match module_data f m with Some _ => true | None => false end) l.
(** The data of read.min are not all among the [readable] ones: two variables are called
    0-char and 9-char, and the symbol of one dot occurs.  So boot.min itself is read
    here. *)
Definition is_no_object (o : obj) : bool := match o with OOther k => (k =? 255)%N | _ => false end.
Fixpoint read_file (n f : nat) (s : list byte) : option (list obj) :=
  match n with
  | O => None
  | S n => match read_object f s with
           | ROk o k => if is_no_object o then Some [] else option_map (cons o) (read_file n f k)
           | _ => None
           end
  end.
(** The built-in reader doubles the digit of a name like 0-char. *)
Definition other_name (n : list byte) : list byte :=
  if same_bytes n (s2b "0-char") then s2b "00-char" else if same_bytes n (s2b "9-char") then s2b "99-char" else n.
Fixpoint renamed (o : obj) : obj :=
  match o with
  | OSym n => OSym (other_name n)
  | OPair a d => OPair (renamed a) (renamed d)
  | OVec l => OVec (map renamed l)
  | _ => o
  end.
Fixpoint mentions (n : list byte) (o : obj) : bool :=
  match o with
  | OSym m => same_bytes n m
  | OPair a d => mentions n a || mentions n d
  | OVec l => existsb (mentions n) l
  | _ => false
  end.
Lemma library_data : all_data 1000 library = true.
Proof. vm_compute. reflexivity. Qed.
Lemma boot_min_data : read_file 1000 1000 (text boot_min) = Some (map renamed (some_data 1000 library)).
Proof. vm_compute. reflexivity. Qed.
Lemma names_apart : existsb (fun d => mentions (s2b "00-char") d || mentions (s2b "99-char") d) (some_data 1000 library) = false.
Proof. vm_compute. reflexivity. Qed.
Lemma names_used : existsb (mentions (s2b "0-char")) (some_data 1000 library) && existsb (mentions (s2b "9-char")) (some_data 1000 library) = true.
Proof. vm_compute. reflexivity. Qed.
Lemma entries_kept_nil es ds : entries es = Some ds -> kept [] es (map snd ds).
Proof.
  revert ds. induction es as [|e es IH]; cbn [entries]; intros ds H.
  - injection H as <-. constructor.
  - destruct (form_is "define-values" e) eqn:F.
    + destruct (entry e) as [[n d]|] eqn:E; [|discriminate]. destruct (entries es) as [q|]; [|discriminate]. injection H as <-.
      destruct (entry_spec _ _ _ F E) as [-> [ns [r ->]]]. cbn [map snd]. apply KeDefinition; auto.
    + apply KeOther; auto. intros Q. apply form_is_spec in Q. congruence.
Qed.
Lemma kept_nil_unique es : forall a b, kept [] es a -> kept [] es b -> a = b.
Proof.
  induction es as [|e es IH]; intros a b A B; inversion A; inversion B; subst; auto;
    try match goal with H : In _ [] |- _ => destruct H end; try (f_equal; auto; fail).
  - exfalso. match goal with H : ~ exists q, _ = _ |- _ => apply H; eexists; reflexivity end.
  - exfalso. match goal with H : ~ exists q, _ = _ |- _ => apply H; eexists; reflexivity end.
Qed.
Lemma data_of_library f l : forall ms p,
  Forall2 (fun (m : list string * list string) x => fst (fst x) = text (fst m) /\ incl (map sym (snd m)) (snd (fst x)) /\ snd x = []) l ms ->
  Forall2 (fun (m : list byte * list obj * list obj) p => load_module f (fst (fst m)) (snd (fst m)) = Some (fst p) /\ kept (snd m) (fst p) (snd p)) ms p ->
  all_data f l = true -> List.concat (map snd p) = some_data f l.
Proof.
  intros ms p F. revert p. induction F as [|m [[file sc] ex] l ms (E1 & E2 & E3) F IH]; intros p P A; inversion P as [|? [es ds] ? p' [L K] P']; subst; auto.
  cbn [fst snd] in E1, E2, E3, L, K. subst file ex. unfold all_data in A. cbn [forallb] in A. apply andb_true_iff in A. destruct A as [A1 A2].
  unfold some_data. cbn [map List.concat snd flat_map]. f_equal; [|apply IH; auto].
  unfold module_data in *. destruct (load_module f (text (fst m)) (map sym (snd m))) as [es'|] eqn:E; [|discriminate].
  rewrite (load_module_more _ _ _ _ _ E2 E) in L. injection L as <-. destruct (entries es') as [q|] eqn:E4; [|discriminate].
  eapply kept_nil_unique; [exact K|]. apply entries_kept_nil. auto.
Qed.
Lemma least_library : the_library least.
Proof. unfold the_library, least. generalize library. intros l. induction l as [|m l IH]; cbn [map]; constructor; auto. cbn [fst snd]. auto using incl_refl. Qed.
Lemma read_file_data f n : forall s ds, read_file n f s = Some ds -> file_data s ds.
Proof.
  induction n as [|n IH]; cbn [read_file]; intros s ds H; [discriminate|]. destruct (read_object f s) as [o k| | |] eqn:E; try discriminate.
  destruct (is_no_object o) eqn:N.
  - destruct o; try discriminate. apply N.eqb_eq in N. subst. injection H as <-. apply (FdEnd s k). exists f. auto.
  - destruct (read_file n f k) as [q|] eqn:E2; [|discriminate]. injection H as <-. apply (FdForm s o k); auto; [exists f; auto|]. intros ->. discriminate.
Qed.
Lemma boot_min_read : file_data (text boot_min) (map renamed (some_data 1000 library)).
Proof. eapply read_file_data. apply boot_min_data. Qed.
(** Loading boot.min finds the definitions that the modules expand to, all of them, in
    their order, and nothing else; two variables of read.min have got other names, which
    occur nowhere else. *)
Lemma definitions_general f (lib : list (list string * list string)) (ms : list (list byte * list obj * list obj)) b t2 :
  Forall2 (fun m x => fst (fst x) = text (fst m) /\ incl (map sym (snd m)) (snd (fst x)) /\ snd x = []) lib ms -> gen_boot f ms = Some b -> all_data f lib = true ->
  file_data t2 (map renamed (some_data f lib)) -> existsb (fun d => mentions (s2b "00-char") d || mentions (s2b "99-char") d) (some_data f lib) = false ->
  exists l : list (list obj * list obj),
    Forall2 (fun m p => load_module f (fst (fst m)) (snd (fst m)) = Some (fst p) /\ kept [] (fst p) (snd p)) ms l /\
    file_data t2 (map renamed (List.concat (map snd l))) /\
    forall d, In d (List.concat (map snd l)) -> mentions (s2b "00-char") d = false /\ mentions (s2b "99-char") d = false.
Proof.
  intros H G A R N. assert (S : Forall (fun m : list byte * list obj * list obj => snd m = []) ms).
  { clear - H. induction H as [|m x l ms (_ & _ & E) _ IH]; constructor; auto. }
  destruct (C80_boot_file f ms _ G) as [l [F _]].
  { eapply Forall_impl; [|exact S]. intros m ->. constructor. }
  exists l. split.
  - clear - F S. induction F as [|m p ms l [L K] F IH]; constructor; inversion S as [|? ? E]; subst; auto. rewrite E in K. auto.
  - rewrite (data_of_library f lib ms l H F A). split; [exact R|].
    intros d I. apply orb_false_iff. destruct (mentions (s2b "00-char") d || mentions (s2b "99-char") d) eqn:E; auto.
    assert (X : existsb (fun d => mentions (s2b "00-char") d || mentions (s2b "99-char") d) (some_data f lib) = true) by (apply existsb_exists; exists d; auto).
    rewrite X in N. discriminate.
Qed.
Theorem C80_boot_min_definitions ms : the_library ms ->
  exists l : list (list obj * list obj),
    Forall2 (fun m p => load_module 1000 (fst (fst m)) (snd (fst m)) = Some (fst p) /\ kept [] (fst p) (snd p)) ms l /\
    file_data (text boot_min) (map renamed (List.concat (map snd l))) /\
    forall d, In d (List.concat (map snd l)) -> mentions (s2b "00-char") d = false /\ mentions (s2b "99-char") d = false.
Proof. intros H. exact (definitions_general 1000 library ms (text boot_min) (text boot_min) H (C80_boot_min ms H) library_data boot_min_read names_apart). Qed.
(** So it does not find exactly these forms. *)
Lemma renamed_mentions n : same_bytes n (s2b "0-char") = true -> forall o, mentions n (renamed o) = false.
Proof.
  intros E. apply same_bytes_eq in E. subst n. induction o as [| | | | |n|n i|b|z|c|a d IHa IHd| |l IHl| |r l IHr IHl|x IHx|x l IHx IHl|k] using obj_ind_strong; cbn [renamed mentions]; auto.
  - unfold other_name. destruct (same_bytes n (s2b "0-char")) eqn:E; [reflexivity|]. destruct (same_bytes n (s2b "9-char")) eqn:E2; [reflexivity|].
    destruct (same_bytes (s2b "0-char") n) eqn:E3; auto. apply same_bytes_eq in E3. subst n. discriminate E.
  - rewrite IHa, IHd. auto.
  - induction IHl as [|x l X _ IH]; auto. cbn [map existsb]. rewrite X, IH. auto.
Qed.
Lemma read_back_general f (lib : list (list string * list string)) (ms : list (list byte * list obj * list obj)) l b :
  Forall2 (fun m x => fst (fst x) = text (fst m) /\ incl (map sym (snd m)) (snd (fst x)) /\ snd x = []) lib ms -> all_data f lib = true ->
  file_data b (map renamed (some_data f lib)) -> existsb (mentions (s2b "0-char")) (some_data f lib) && existsb (mentions (s2b "9-char")) (some_data f lib) = true ->
  Forall2 (fun m p => load_module f (fst (fst m)) (snd (fst m)) = Some (fst p) /\ kept [] (fst p) (snd p)) ms l ->
  ~ file_data b (List.concat (map snd l)).
Proof.
  intros H A R U F D. assert (F' : Forall2 (fun m p => load_module f (fst (fst m)) (snd (fst m)) = Some (fst p) /\ kept (snd m) (fst p) (snd p)) ms l).
  { clear D A R U. revert l F. induction H as [|m x lib ms (_ & _ & E) _ IH]; intros l F; inversion F; subst; constructor; auto. rewrite E. auto. }
  rewrite (data_of_library f lib ms l H F' A) in D. assert (E := C80_file_data_unique _ _ _ D R).
  apply andb_true_iff in U. destruct U as [U _]. rewrite E in U. apply existsb_exists in U as [d [I M]].
  apply in_map_iff in I as [o [<- _]]. rewrite (renamed_mentions (s2b "0-char") eq_refl) in M. discriminate.
Qed.
Theorem C80_read_back_refuted ms l : the_library ms ->
  Forall2 (fun m p => load_module 1000 (fst (fst m)) (snd (fst m)) = Some (fst p) /\ kept [] (fst p) (snd p)) ms l ->
  ~ file_data (text boot_min) (List.concat (map snd l)).
Proof. intros H. exact (read_back_general 1000 library ms l (text boot_min) H library_data boot_min_read names_used). Qed.

(** The names that a form of the boot file defines. *)
Inductive defines_names : obj -> list obj -> Prop :=
| DnForm ns r : defines_names (olist (sym "define-values" :: olist ns :: r)) ns.
Definition names_of (d : obj) : list obj :=
  match to_list d with Some (_ :: ids :: _) => match to_list ids with Some l => l | None => [] end | _ => [] end.
Fixpoint distinct (l : list obj) : bool := match l with [] => true | a :: r => negb (existsb (obj_sym_dec a) r) && distinct r end.
Definition is_some {A} (o : option A) : bool := match o with Some _ => true | None => false end.
Definition symbolb (o : obj) : bool := match o with OSym _ => true | _ => false end.
Lemma boot_names : distinct (flat_map names_of (map renamed (some_data 1000 library))) && forallb symbolb (flat_map names_of (map renamed (some_data 1000 library))) = true.
Proof. vm_compute. reflexivity. Qed.
Lemma distinct_nodup l : forallb symbolb l = true -> distinct l = true -> NoDup l.
Proof.
  induction l as [|a l IH]; cbn [forallb distinct]; intros S D; constructor; apply andb_true_iff in S, D; destruct S as [S1 S2], D as [D1 D2]; auto.
  intros I. apply negb_true_iff in D1. assert (X : existsb (obj_sym_dec a) l = true); [|congruence].
  apply existsb_exists. exists a. split; auto. apply obj_sym_dec_refl. destruct a; try discriminate. left. eauto.
Qed.
Lemma defines_names_of ds nss : Forall2 defines_names ds nss -> flat_map names_of ds = List.concat nss.
Proof.
  induction 1 as [|d ns ds nss D _ IH]; auto. cbn [flat_map List.concat]. f_equal; auto. destruct D as [ns r].
  unfold names_of. rewrite to_olist. rewrite to_olist. auto.
Qed.
Lemma boot_forms : forallb (fun d => match to_list d with Some (k :: ids :: _) => is_kw "define-values" k && is_some (to_list ids) | _ => false end) (map renamed (some_data 1000 library)) = true.
Proof. vm_compute. reflexivity. Qed.
(** No name is defined twice in boot.min: no module of the library replaces a procedure of
    another one there. *)
Theorem C80_boot_min_names ds : file_data (text boot_min) ds ->
  exists nss, Forall2 defines_names ds nss /\ NoDup (List.concat nss) /\ Forall symbol (List.concat nss).
Proof.
  intros D. rewrite (C80_file_data_unique _ _ _ D boot_min_read). clear ds D.
  assert (B := boot_names). assert (C := boot_forms). revert B C. generalize (map renamed (some_data 1000 library)). intros ds B C.
  assert (X : exists nss, Forall2 defines_names ds nss).
  { clear B. induction ds as [|d ds IH]; [exists []; constructor|]. cbn [forallb] in C. apply andb_true_iff in C. destruct C as [C1 C2].
    destruct (IH C2) as [nss IH']. destruct (to_list d) as [[|k [|ids r]]|] eqn:E; try discriminate. apply to_list_spec in E.
    apply andb_true_iff in C1. destruct C1 as [K S]. apply is_kw_spec in K. destruct (to_list ids) as [ns|] eqn:E2; [|discriminate].
    apply to_list_spec in E2. subst. exists (ns :: nss). constructor; auto. constructor. }
  destruct X as [nss X]. exists nss. split; auto.
  rewrite <- (defines_names_of _ _ X). apply andb_true_iff in B. destruct B as [B1 B2]. split; [apply distinct_nodup; auto|].
  rewrite forallb_forall in B2. apply Forall_forall. intros o I. specialize (B2 o I). destruct o; try discriminate. left. eauto.
Qed.

(** The list procedures that C79 is about: their texts there are what boot.min holds. *)
Definition list_texts : list string :=
  [LibText.cons_star_text; LibText.first_text; LibText.second_text; LibText.third_text; LibText.fourth_text; LibText.fifth_text;
   LibText.sixth_text; LibText.seventh_text; LibText.eighth_text; LibText.ninth_text; LibText.tenth_text; LibText.list_ref_text;
   LibText.member_text; LibText.remove_text; LibText.remove_star_text; LibText.filter_text; LibText.foldl_text; LibText.foldr_text;
   LibText.assoc_text; LibText.index_of_text; LibText.list_set_text].
Lemma list_not_renamed : map renamed (map LibText.datum_of list_texts) = map LibText.datum_of list_texts.
Proof. vm_compute. reflexivity. Qed.
Lemma list_min_data : module_data 1000 (list_min, list_uses) = Some (map LibText.datum_of list_texts).
Proof. vm_compute. reflexivity. Qed.
Lemma some_data_cons f m l : some_data f (m :: l) = match module_data f m with Some ds => ds | None => [] end ++ some_data f l.
Proof. reflexivity. Qed.
Lemma list_first f m l ds : module_data f m = Some ds -> map renamed ds = ds -> exists r, map renamed (some_data f (m :: l)) = ds ++ r.
Proof. intros E R. rewrite some_data_cons, E, map_app, R. eauto. Qed.
Theorem C80_list_texts ds : file_data (text boot_min) ds ->
  exists r, ds = map LibText.datum_of list_texts ++ r.
Proof.
  intros D. rewrite (C80_file_data_unique _ _ _ D boot_min_read). clear D. exact (list_first 1000 _ _ _ list_min_data list_not_renamed).
Qed.
(** And every name in its expansion is as in src/library/private/list.min. *)
Lemma module_general f m sc ds : module_data f m = Some ds -> incl (map sym (snd m)) sc ->
  exists es, load_module f (text (fst m)) sc = Some es /\ kept [] es ds.
Proof.
  unfold module_data. intros X I. destruct (load_module f (text (fst m)) (map sym (snd m))) as [es|] eqn:E; [|discriminate]. destruct (entries es) as [q|] eqn:E2; [|discriminate].
  injection X as X. exists es. split; [eapply load_module_more; eauto|]. rewrite <- X. apply entries_kept_nil. auto.
Qed.
Theorem C80_list_min sc : incl (map sym list_uses) sc ->
  exists es, load_module 1000 (text list_min) sc = Some es /\ kept [] es (map LibText.datum_of list_texts).
Proof. exact (module_general 1000 (list_min, list_uses) sc _ list_min_data). Qed.

(** ** What is lost *)

(** The modules run more than definitions: set.min registers how sets are compared, hashed
    and printed.  These forms are not in boot.min. *)
Definition set_registrations : list string :=
  ["(let-values () (letrec-values (((methods) (cons gen:equal+hash (list (lambda (a b rec-equal?) (rec-equal? (set-store a) (set-store b))) (lambda (a rec-hash) (+ (rec-hash (set-store a)) 401235121))))) ((gen-id) (car methods)) ((fns) (cdr methods))) (record-type-add-generic! set gen-id fns)))";
   "(let-values () (letrec-values (((methods) (cons gen:custom-write (list (lambda (s port mode) (fprintf port ""#<set ~s>"" (vector->list (hashtable-keys (set-store s)))))))) ((gen-id) (car methods)) ((fns) (cdr methods))) (record-type-add-generic! set gen-id fns)))";
   "(if (gen:equal+hash? set) (let-values () (letrec-values (((get-equal-proc) (generics-accessor gen:equal+hash (quote equal-proc))) ((get-hash-proc) (generics-accessor gen:equal+hash (quote hash-proc))) (() (let-values () (record-type-equal-procedure set (get-equal-proc set)) (values)))) (record-type-hash-procedure set (get-hash-proc set)))) (void))";
   "(if (gen:custom-write? set) (let-values () (letrec-values (((get-write-proc) (generics-accessor gen:custom-write (quote write-proc)))) (record-writer set (get-write-proc set)))) (void))"].
Definition others (es : list obj) : list obj := filter (fun e => negb (form_is "define-values" e)) es.
Lemma set_others : option_map (fun es => map write (others es)) (load_module 1000 (text set_min) (map sym set_uses)) = Some (map s2b set_registrations).
Proof. vm_compute. reflexivity. Qed.
Lemma others_general f file uses sc ts b : option_map (fun es => map write (others es)) (load_module f file uses) = Some (map s2b ts) ->
  (forall ds, file_data b ds -> exists nss, Forall2 defines_names ds nss) -> incl uses sc ->
  exists es, load_module f file sc = Some es /\
    forall t, In t ts -> exists e, In e es /\ write e = s2b t /\ forall ds, file_data b ds -> ~ In e ds.
Proof.
  intros X B I. destruct (load_module f file uses) as [es|] eqn:E; [|discriminate].
  injection X as X. exists es. split; [eapply load_module_more; eauto|]. intros t T.
  assert (Y : In (s2b t) (map write (others es))) by (rewrite X; apply in_map; auto).
  apply in_map_iff in Y as [e [W Ie]]. unfold others in Ie. apply filter_In in Ie as [Ie N]. exists e. split; auto. split; auto.
  intros ds D J. destruct (B ds D) as [nss F]. apply negb_true_iff in N.
  assert (Q : exists ns, defines_names e ns). { clear - F J. induction F as [|d ns ds nss D F IH]; [destruct J|]. destruct J as [<-|J]; eauto. }
  destruct Q as [ns Q]. destruct Q. assert (Z : form_is "define-values" (olist (sym "define-values" :: olist ns :: r)) = true) by (apply form_is_spec; eexists; reflexivity).
  congruence.
Qed.
Lemma boot_min_forms ds : file_data (text boot_min) ds -> exists nss, Forall2 defines_names ds nss.
Proof. intros D. destruct (C80_boot_min_names ds D) as [nss [F _]]. eauto. Qed.
Theorem C80_registrations_refuted sc : incl (map sym set_uses) sc ->
  exists es, load_module 1000 (text set_min) sc = Some es /\
    forall t, In t set_registrations -> exists e, In e es /\ write e = s2b t /\ forall ds, file_data (text boot_min) ds -> ~ In e ds.
Proof. exact (others_general 1000 (text set_min) (map sym set_uses) sc set_registrations (text boot_min) set_others boot_min_forms). Qed.

(** ** Examples *)
(** A module of three definitions and an expression, with one name excluded *)
Definition small : list string := ["(define (f x) (and x (h x 2)))"; "(f 3) ; not a definition"; "(define-values (a b) (values 1 2))"; "(define g f)"].
Example boot_file_example :
  gen_boot 100 [(text small, map sym ["h"; "values"], [sym "g"])] =
    Some (text ["(define-values (f) (lambda (x) (if x (h x 2) #f)))"; "(define-values (a b) (values 1 2))"; ""]) /\
  Forall symbol [sym "g"].
Proof. split; [vm_compute; reflexivity|constructor; [left; eexists; reflexivity|constructor]]. Qed.
Example small_file : file_data (text ["(define-values (f) (lambda (x) (if x (h x 2) #f)))"; "(define-values (a b) (values 1 2))"; ""])
  (map LibText.datum_of ["(define-values (f) (lambda (x) (if x (h x 2) #f)))"; "(define-values (a b) (values 1 2))"]).
Proof. apply (read_file_data 100 100). vm_compute. reflexivity. Qed.
(** A module that uses a name out of scope, or defines no name, makes no boot file. *)
Example out_of_scope : gen_boot 100 [(text small, map sym ["h"], [])] = None.
Proof. vm_compute. reflexivity. Qed.
Example no_name : gen_boot 100 [(text ["(define-values () (values))"], map sym ["values"], [])] = None.
Proof. vm_compute. reflexivity. Qed.
(** The library with these scopes *)
Example the_library_example : the_library least.
Proof. exact least_library. Qed.

Print Assumptions C80_boot_file.
Print Assumptions C80_kept.
Print Assumptions C80_file_data_unique.
Print Assumptions C80_more_scope.
Print Assumptions C80_boot_min.
Print Assumptions C80_boot_min_definitions.
Print Assumptions C80_read_back_refuted.
Print Assumptions C80_boot_min_names.
Print Assumptions C80_list_texts.
Print Assumptions C80_list_min.
Print Assumptions C80_registrations_refuted.
