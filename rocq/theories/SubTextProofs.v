(** What substring is to do, and running its text. *)
From Coq Require Import ZArith NArith Bool Ascii String List Arith Lia.
From Verif Require Import Base Heap HeapM Ast Sem Check Lists SimLemmas LibText LibTextProofs LibTextRun PathTextProofs PathTextRun SubText.
Import ListNotations.
Local Open Scope list_scope.

(** ** Specification *)

(** The global variables that the text refers to, and the one it defines. *)
Definition sub_base : list string :=
  ["string?"; "string-length"; "string-ref"; "string-set!"; "make-string"; "non-negative-integer?"; "<="; "="; "+"; "-"; "void";
   "raise-argument-error"; "raise-range-error"]%string.
Definition sub_names : list string := sub_base ++ ["substring"]%string.

(** The string [l] gets the content [b]; otherwise there are only new objects. *)
Definition overwrites (l : nat) (b : list byte) (s s' : store) : Prop :=
  exists s1, grows s s1 /\ s' = set_heap (set_nth l (CStr b) (heap_of s1)) s1.

Section Spec.
  Variable prim : N -> list val -> heap -> option presult.
  Variable complaint : val -> val -> err.
  Variable range : list val -> err.
  Local Notation returns := (returns prim).
  Local Notation raises := (raises prim).

  (** *** What the text relies on *)
  Definition is_checked_length (s : store) f :=
    is_string_length prim s f /\ (forall v, no_string (heap_of s) v -> raises s f [v] (complaint (sym "string-length") v)).
  (** string-set! within a string. *)
  Definition is_string_set (s : store) f :=
    forall l b i c, nth_error (heap_of s) l = Some (CStr b) -> ~ In NUL b -> i < List.length b -> c <> NUL ->
      exists w s', apply prim s f [VPtr l; VFix (Z.of_nat i); VChar c] (RVals [w]) s' /\ overwrites l (set_nth i c b) s s'.
  (** A new string of a given length, whatever it is filled with. *)
  Definition is_make_string (s : store) f :=
    forall n, (Z.of_nat n < 2 ^ 62)%Z ->
      exists l b s', apply prim s f [VFix (Z.of_nat n)] (RVals [VPtr l]) s' /\ grows s s' /\ List.length (heap_of s) <= l /\
        nth_error (heap_of s') l = Some (CStr b) /\ ~ In NUL b /\ List.length b = n.
  Definition is_at_most (s : store) f := forall a b, returns s f [VFix a; VFix b] (of_bool (a <=? b)%Z).
  (** raise-range-error takes six arguments. *)
  Definition is_range_error (s : store) f :=
    forall vs, raises s f vs (if Nat.eqb (List.length vs) 6 then range vs else ErrArity f (List.length vs)).

  (** *** What the text is to do *)
  Definition index (v : val) : Prop := exists n, v = VFix (Z.of_nat n).
  Definition is_substring_proc (lit : obj -> val) (rre : val) (s : store) f :=
    is_substring prim s f /\
    (forall v t i j, text_at (heap_of s) v t -> i <> VUnbound -> j <> VUnbound -> ~ index i ->
       raises s f [v; i; j] (complaint (sym "substring") i)) /\
    (forall v t i j, text_at (heap_of s) v t -> j <> VUnbound -> index i -> ~ index j ->
       raises s f [v; i; j] (complaint (sym "substring") j)) /\
    (forall v t i j, text_at (heap_of s) v t -> (Z.of_nat (List.length t) + 1 < 2 ^ 62)%Z -> List.length t < j ->
       raises s f [v; VFix (Z.of_nat i); VFix (Z.of_nat j)]
         (range [sym "substring"; v; lit (OStr (list_ascii_of_string "end")); VFix 0; VFix (Z.of_nat (List.length t) + 1); VFix (Z.of_nat j)])) /\
    (* a start behind the end: the error is called with too few arguments *)
    (forall v t i j, text_at (heap_of s) v t -> j <= List.length t -> j < i ->
       raises s f [v; VFix (Z.of_nat i); VFix (Z.of_nat j)] (ErrArity rre 5)) /\
    (* what is no string is complained about by string-length *)
    (forall v i j, no_string (heap_of s) v -> i <> VUnbound -> j <> VUnbound -> raises s f [v; i; j] (complaint (sym "string-length") v)).
End Spec.

(** ** Overwriting a new string *)
Section Over.
  Variables (l : nat) (b : list byte) (s s' : store).
  Hypothesis O : overwrites l b s s'.
  Lemma over_grows z : grows z s -> List.length (heap_of z) <= l -> grows z s'.
  Proof.
    destruct O as (s1 & G & ->). intros R L. pose proof (grows_trans _ _ _ R G) as ((e & A1) & A2 & A3 & A4 & A5). split.
    - exists (set_nth (l - List.length (heap_of z)) (CStr b) e). cbn. rewrite A1. now apply set_nth_app.
    - split; auto. split; auto. split; auto. intros GZ. intros k p K. cbn in *. rewrite set_nth_length. now apply (A5 GZ k p).
  Qed.
  Lemma over_cell i v : cell_is s i v -> cell_is s' i v.
  Proof. destruct O as (s1 & G & ->). intros H. exact (grows_cell _ _ _ _ G H). Qed.
  Lemma over_later names z : later names z s -> later names z s'.
  Proof. destruct O as (s1 & G & ->). intros H. exact (later_trans _ _ _ _ H (grows_later names _ _ G)). Qed.
  Lemma over_good : good s -> good s'.
  Proof. destruct O as (s1 & G & ->). intros H k p K. cbn in *. rewrite set_nth_length. exact (grows_good _ _ G H k p K). Qed.
  Lemma over_proc f p : proc_at f (procs_of s) = Some p -> proc_at f (procs_of s') = Some p.
  Proof. destruct O as (s1 & G & ->). intros H. exact (grows_proc _ _ _ _ G H). Qed.
  Lemma over_text k t : k <> l -> text_at (heap_of s) (VPtr k) t -> text_at (heap_of s') (VPtr k) t.
  Proof.
    destruct O as (s1 & G & ->). intros N H. apply (grows_text _ _ _ _ G) in H. destruct H as (k0 & E & H & R). injection E as <-.
    exists k. split; auto. split; auto. cbn. now rewrite set_nth_ne.
  Qed.
  Lemma over_at c : nth_error (heap_of s) l = Some c -> nth_error (heap_of s') l = Some (CStr b).
  Proof.
    destruct O as (s1 & (E & _) & ->). intros H. cbn. apply set_nth_eq. apply nth_error_Some. rewrite (extends_nth _ _ _ _ E H). discriminate.
  Qed.
End Over.

Section Text.
  Variable names : list string.
  Hypothesis HN : incl sub_names names.
  Variable prim : N -> list val -> heap -> option presult.
  Variable complaint : val -> val -> err.
  Variable range : list val -> err.
  Variable lit : obj -> val.
  Hypothesis HL : literals lit.
  Variable s0 : store.
  Local Notation has := (has names s0).
  Local Notation later := (later names).
  Lemma sub_name x : existsb (String.eqb x) sub_names = true -> In x names.
  Proof. intros H. apply HN. apply existsb_exists in H. destruct H as (y & I & E). apply String.eqb_eq in E. now subst. Qed.
  Ltac nm := apply sub_name; reflexivity.
  Ltac stp := repeat lib_step nm.
  Lemma runrec_skip t r s k e bs (Q : option err -> store -> Prop) :
    run prim t r s e (fun o s1 => match o with RVals [] => runrec prim t r s1 k bs Q | RVals _ => False | RErr y => Q (Some y) s1 end) ->
    runrec prim t r s k (([], e) :: bs) Q.
  Proof.
    intros (o & s1 & A & H). destruct o as [[|v vs]|y]; try contradiction.
    - destruct H as (o & s2 & B & HQ). exists o, s2. split; auto. eapply ErCons; [exact A|reflexivity|]. cbn. rewrite Nat.add_0_r. exact B.
    - exists (Some y), s1. split; auto. now apply ErErr.
  Qed.

  Lemma run_no_values t r s (Q : res -> store -> Prop) : Q (RVals []) s -> run prim t r s (EValues []) Q.
  Proof. intros H. exists (RVals []), s. split; auto. constructor. constructor. Qed.

  Hypothesis Hstring : has "string?" (is_string prim).
  Hypothesis Hlen : has "string-length" (is_checked_length prim complaint).
  Hypothesis Href : has "string-ref" (is_string_ref prim).
  Hypothesis Hset : has "string-set!" (is_string_set prim).
  Hypothesis Hmake : has "make-string" (is_make_string prim).
  Hypothesis Hindex : has "non-negative-integer?" (is_index prim).
  Hypothesis Hle : has "<=" (is_at_most prim).
  Hypothesis Hsame : has "=" (is_same_number prim).
  Hypothesis Hsum : has "+" (is_sum prim).
  Hypothesis Hminus : has "-" (is_minus prim).
  Hypothesis Hvoid : has "void" (is_void prim).
  Hypothesis Hrae : has "raise-argument-error" (is_complaint prim complaint).
  Hypothesis Hrre : has "raise-range-error" (is_range_error prim range).

  Lemma nth_error_skipn_sub {A} (t : list A) i n : i <= n -> nth_error (skipn i t) (n - i) = nth_error t n.
  Proof.
    revert i n. induction t as [|c t IH]; intros i n L; [rewrite skipn_nil; now destruct (n - i), n|].
    destruct i as [|i]; [now rewrite Nat.sub_0_r|]. destruct n as [|n]; [lia|]. cbn. apply IH. lia.
  Qed.
  Lemma index_no v : ~ index v -> match v with VFix z => (0 <=? z)%Z | _ => false end = false.
  Proof.
    intros H. destruct v; auto. match goal with |- (0 <=? ?z)%Z = _ => destruct (Z.leb_spec 0 z); auto; destruct H; exists (Z.to_nat z); now rewrite Z2Nat.id end.
  Qed.
  Lemma index_yes n : (0 <=? Z.of_nat n)%Z = true.
  Proof. apply Z.leb_le. lia. Qed.

  Ltac use := idtac; match goal with
    | B : is_index _ ?s ?g |- context [?g] => apply B
    | B : is_at_most _ ?s ?g |- context [?g] => apply B
    | B : is_same_number _ ?s ?g |- context [?g] => apply B
    end.
  (** A check that is passed, when the condition has been evaluated. *)
  Ltac checked := apply runrec_skip; apply run_let_nil; let s := fresh "s" in let G := fresh "G" in intros s G; pcarry G; clear G; stp.
  Ltac passed := cbn [truthy of_bool]; stp; match goal with B : is_void _ ?s ?g |- runap _ ?s ?g _ _ => replied ltac:(apply B) end; stp; apply run_no_values; cbv beta iota.

  Ltac complained := cbn [truthy of_bool]; apply run_let_nil; let s := fresh "s" in let G := fresh "G" in intros s G; pcarry G; clear G; stp;
    rewrite ?(proj2 (proj2 (proj2 HL)));
    match goal with B : is_complaint _ _ ?z ?g |- runap _ ?z ?g _ _ =>
      eapply runap_raises; [apply B|]; let s' := fresh "s" in let G' := fresh "G" in intros s' G'; pcarry G'; cbv beta iota; auto end.
  (** raise-range-error, whose value is known. *)
  Definition is_this_range_error (rre : val) (s : store) f := f = rre /\ is_range_error prim range s f.
  Ltac out_of_range := apply run_let_nil; let s := fresh "s" in let G := fresh "G" in intros s G; pcarry G; clear G; stp.
  Ltac ranged := rewrite ?(proj2 (proj2 (proj2 HL))), ?(proj1 (proj2 (proj2 HL)));
    match goal with B : is_this_range_error _ ?z ?g |- runap _ ?z ?g ?vs _ => destruct B as [-> B]; eapply runap_raises; [exact (B vs)|] end;
    let s' := fresh "s" in let G' := fresh "G" in intros s' G'; pcarry G'; cbv beta iota; auto.

  Lemma substring_ok : loaded lit s0 substring_text ->
    exists rre, glob_ref (Id "raise-range-error") (glob_of s0) = Some rre /\ has "substring" (is_substring_proc prim complaint range lit rre).
  Proof.
    intros LD. destruct Hrre as (rre & GR & NR & HR). exists rre. split; auto.
    assert (Hthis : has "raise-range-error" (is_this_range_error rre)) by (exists rre; repeat split; auto; apply HR; auto). clear HR.
    match type of LD with loaded _ _ ?t =>
      let e := eval vm_compute in (code_of lit t) in
      match e with EDefine [Id ?x] (ELam ?fm ?body) =>
        apply (loaded_is names lit s0 t x fm body); [vm_cast_no_check (eq_refl e)|exact LD|]
      end
    end.
    intros so f LT GD P. assert (R := grows_refl so). split; [|split; [|split; [|split; [|split]]]].
    - intros v t i j T LE LJ.
      assert (OUT : runap prim so f [v; VFix (Z.of_nat i); VFix (Z.of_nat j)]
        (fun o s' => grows so s' /\ exists w, o = RVals [w] /\ text_at (heap_of s') w (firstn (j - i) (skipn i t)))).
      { assert (TS : exists kv, v = VPtr kv /\ kv < List.length (heap_of so)) by (destruct T as (kv & -> & H & _); exists kv; split; auto; apply nth_error_Some; congruence). assert (LT62 := text_len _ _ _ T).
        eapply runap_clo3; [exact P|eapply text_bound; eauto|discriminate|discriminate|]. intros s1 b c d G1 _ _ _ C1 C2 C3. pcarry G1.
        apply runseq_one. older. apply run_letrec. intros s2 k G2 EK LK. pcarry G2. cbn [map fst List.concat app List.length bind_env] in *.
        assert (LK0 : k < List.length (cells_of s2)) by lia. assert (LK1 : S k < List.length (cells_of s2)) by lia.
        apply runrec_cons. stp. replied ltac:(eapply (proj1 B); eauto). intros s4 E4. assigned E4.
        checked. replied ltac:(eapply string_yes; eauto). passed.
        checked. replied ltac:(use). rewrite index_yes. passed.
        checked. replied ltac:(use). rewrite index_yes. passed.
        checked. replied ltac:(use). replace (Z.of_nat j <=? Z.of_nat (List.length t))%Z with true by (symmetry; apply Z.leb_le; lia). passed.
        checked. replied ltac:(use). replace (Z.of_nat i <=? Z.of_nat j)%Z with true by (symmetry; apply Z.leb_le; lia). passed.
        apply runrec_cons. stp. replied ltac:(idtac; match goal with B : is_minus _ ?s ?g |- context [?g] => apply B; lia end). stp. rewrite <- Nat2Z.inj_sub by lia.
        match goal with B : is_make_string _ ?z ?g |- runap _ ?z ?g _ _ => destruct (B (j - i) ltac:(lia)) as (l & fill & sm & AM & GM & LM & NM & BM & FM) end.
        assert (LO : List.length (heap_of so) <= l) by (destruct R as ((e & RE) & _); rewrite RE, app_length in LM; lia).
        assert (TM : text_at (heap_of sm) (VPtr l) fill) by (exists l; repeat split; auto; lia). clear NM BM LM.
        exists (RVals [VPtr l]), sm. split; [exact AM|]. pcarry GM. clear GM AM. cbv beta iota. intros sn EN. assigned EN. apply runrec_nil.
        apply runseq_one. eapply run_loop; [assumption|]. intros lp sl G CL PL. 
        match type of CL with cell_is _ (List.length (cells_of ?z)) _ => set (q := List.length (cells_of z)) in *; clearbody q end. pcarry G. clear G.
        assert (LOOP : forall m n done rest, m + n = j -> i <= n -> done = firstn (n - i) (skipn i t) -> List.length rest = m -> forall z,
          grows so z -> later s0 z -> good z -> cell_is z q lp -> cell_is z b v -> cell_is z d (VFix (Z.of_nat j)) -> cell_is z (S k) (VPtr l) ->
          proc_at lp (procs_of z) = proc_at lp (procs_of sl) -> text_at (heap_of z) v t -> text_at (heap_of z) (VPtr l) (done ++ rest) ->
          runap prim z lp [VFix (Z.of_nat (n - i)); VFix (Z.of_nat n)]
            (fun o s' => grows so s' /\ exists w, o = RVals [w] /\ text_at (heap_of s') w (firstn (j - i) (skipn i t)))).
        { rewrite PL. clear - HN HL Href Hset Hsame Hsum LE LJ TS LO LT62.
          induction m as [|m IM]; intros n done rest EM IN ED LR z R LT GD CL CB CD CS PL T TM;
            (eapply runap_clo2; [exact PL|discriminate|discriminate|]); intros s1 bi bn G1 _ _ CI CN; pcarry G1; stp; replied ltac:(use).
          - replace (Z.of_nat n =? Z.of_nat j)%Z with true by (symmetry; apply Z.eqb_eq; lia). cbn [of_bool truthy]. stp. split; auto. exists (VPtr l). split; auto.
            destruct rest; [|discriminate]. rewrite app_nil_r in TM. cbn in EM. subst n. now subst done.
          - replace (Z.of_nat n =? Z.of_nat j)%Z with false by (symmetry; apply Z.eqb_neq; lia). cbn [of_bool truthy].
            apply run_let_nil. intros s3 G3. pcarry G3. stp.
            destruct (nth_error t n) as [ch|] eqn:EN; [|apply nth_error_None in EN; lia].
            replied ltac:(idtac; match goal with B : is_string_ref _ _ _ |- _ => eapply (proj1 B); [eassumption|exact EN] end).
            stp. destruct rest as [|x rest]; [discriminate|].
            assert (LD : List.length done = n - i) by (subst done; rewrite firstn_length, skipn_length; lia).
            assert (NC : ch <> NUL). { intros ->. destruct T as (? & _ & _ & N & _). apply N. eapply nth_error_In; eauto. }
            assert (TT := TM). destruct TT as (l0 & EL & HL0 & NL & BL). injection EL as <-.
            match goal with B : is_string_set _ ?y ?g |- runap _ ?y ?g _ _ => destruct (B l (done ++ x :: rest) (n - i) ch HL0 NL) as (w & so2 & A & O); auto end.
            { rewrite app_length. cbn. lia. }
            rewrite <- LD, set_nth_app, Nat.sub_diag in O by lia. cbn [set_nth] in O. exists (RVals [w]), so2. split; [exact A|]. cbv beta iota.
            assert (K1 := over_at _ _ _ _ O _ HL0).
            assert (T2 : text_at (heap_of so2) (VPtr l) ((done ++ [ch]) ++ rest)).
            { exists l. split; auto. rewrite <- app_assoc. split; [exact K1|]. split.
              - intros X. apply in_app_or in X. destruct X as [X|[X|X]]; [apply NL, in_or_app; auto|congruence|apply NL, in_or_app; right; now right].
              - revert BL. rewrite !app_length. cbn. lia. }
            apply (over_grows _ _ _ _ O) in R; [|exact LO]. apply (over_later _ _ _ _ O) in LT. apply (over_good _ _ _ _ O) in GD. apply (over_proc _ _ _ _ O) in PL.
            apply (over_cell _ _ _ _ O) in CL, CB, CD, CS, CI, CN.
            assert (VN : exists kv, v = VPtr kv /\ kv <> l).
            { destruct TS as (kv & -> & H). exists kv. split; auto. lia. }
            destruct VN as (kv & -> & VN). apply (over_text _ _ _ _ O) in T; [|exact VN]. clear O A TM HL0. stp.
            rewrite ?(proj1 (proj2 (proj2 HL))). replied ltac:(idtac; match goal with B : is_sum _ ?s ?g |- context [?g] => apply B; lia end). stp.
            rewrite ?(proj1 (proj2 (proj2 HL))). replied ltac:(idtac; match goal with B : is_sum _ ?s ?g |- context [?g] => apply B; lia end).
            replace (Z.of_nat (n - i) + 1)%Z with (Z.of_nat (S n - i)) by lia. replace (Z.of_nat n + 1)%Z with (Z.of_nat (S n)) by lia.
            stp. eapply (IM (S n) (done ++ [ch]) rest); eauto; try lia.
            replace (S n - i) with ((n - i) + 1) by lia. rewrite ED. symmetry. apply firstn_snoc. rewrite nth_error_skipn_sub by lia. exact EN. }
        stp. rewrite ?(proj1 (proj2 (proj2 HL))). specialize (LOOP (j - i) i [] fill). rewrite Nat.sub_diag in LOOP. apply LOOP; auto; lia. }
      destruct OUT as (o & s' & A & G & w & -> & TW). exists w, s'. auto.
    - intros v t i j T NI NJ II. apply raises_run. assert (LT62 := text_len _ _ _ T).
      eapply runap_clo3; [exact P|eapply text_bound; eauto|first [assumption|discriminate]|first [assumption|discriminate]|]. intros s1 b c d G1 _ _ _ C1 C2 C3. pcarry G1.
      apply runseq_one. older. apply run_letrec. intros s2 k G2 EK LK. pcarry G2. cbn [map fst List.concat app List.length bind_env] in *.
      assert (LK0 : k < List.length (cells_of s2)) by lia.
      apply runrec_cons. stp. replied ltac:(eapply (proj1 B); eauto). intros s4 E4. assigned E4.
      checked. replied ltac:(eapply string_yes; eauto). passed.
      checked. replied ltac:(use). rewrite index_no by exact II. complained.
    - intros v t i j T NJ (n & ->) IJ. apply raises_run. assert (LT62 := text_len _ _ _ T).
      eapply runap_clo3; [exact P|eapply text_bound; eauto|first [assumption|discriminate]|first [assumption|discriminate]|]. intros s1 b c d G1 _ _ _ C1 C2 C3. pcarry G1.
      apply runseq_one. older. apply run_letrec. intros s2 k G2 EK LK. pcarry G2. cbn [map fst List.concat app List.length bind_env] in *.
      assert (LK0 : k < List.length (cells_of s2)) by lia.
      apply runrec_cons. stp. replied ltac:(eapply (proj1 B); eauto). intros s4 E4. assigned E4.
      checked. replied ltac:(eapply string_yes; eauto). passed.
      checked. replied ltac:(use). rewrite index_yes. passed.
      checked. replied ltac:(use). rewrite index_no by exact IJ. complained.
    - intros v t i j T LB LJ. apply raises_run. assert (LT62 := text_len _ _ _ T).
      eapply runap_clo3; [exact P|eapply text_bound; eauto|first [assumption|discriminate]|first [assumption|discriminate]|]. intros s1 b c d G1 _ _ _ C1 C2 C3. pcarry G1.
      apply runseq_one. older. apply run_letrec. intros s2 k G2 EK LK. pcarry G2. cbn [map fst List.concat app List.length bind_env] in *.
      assert (LK0 : k < List.length (cells_of s2)) by lia.
      apply runrec_cons. stp. replied ltac:(eapply (proj1 B); eauto). intros s4 E4. assigned E4.
      checked. replied ltac:(eapply string_yes; eauto). passed.
      checked. replied ltac:(use). rewrite index_yes. passed.
      checked. replied ltac:(use). rewrite index_yes. passed.
      checked. replied ltac:(use). replace (Z.of_nat j <=? Z.of_nat (List.length t))%Z with false by (symmetry; apply Z.leb_gt; lia).
      cbn [truthy of_bool]. out_of_range. rewrite ?(proj1 (proj2 (proj2 HL))). replied ltac:(idtac; match goal with B : is_sum _ ?s ?g |- context [?g] => apply B; lia end). stp. ranged.
    - intros v t i j T LJ LI. apply raises_run. assert (LT62 := text_len _ _ _ T).
      eapply runap_clo3; [exact P|eapply text_bound; eauto|first [assumption|discriminate]|first [assumption|discriminate]|]. intros s1 b c d G1 _ _ _ C1 C2 C3. pcarry G1.
      apply runseq_one. older. apply run_letrec. intros s2 k G2 EK LK. pcarry G2. cbn [map fst List.concat app List.length bind_env] in *.
      assert (LK0 : k < List.length (cells_of s2)) by lia.
      apply runrec_cons. stp. replied ltac:(eapply (proj1 B); eauto). intros s4 E4. assigned E4.
      checked. replied ltac:(eapply string_yes; eauto). passed.
      checked. replied ltac:(use). rewrite index_yes. passed.
      checked. replied ltac:(use). rewrite index_yes. passed.
      checked. replied ltac:(use). replace (Z.of_nat j <=? Z.of_nat (List.length t))%Z with true by (symmetry; apply Z.leb_le; lia). passed.
      checked. replied ltac:(use). replace (Z.of_nat i <=? Z.of_nat j)%Z with false by (symmetry; apply Z.leb_gt; lia).
      cbn [truthy of_bool]. out_of_range. ranged.
    - intros v i j NS NI NJ. apply raises_run.
      eapply runap_clo3; [exact P|eapply no_string_bound; eauto|assumption|assumption|]. intros s1 b c d G1 _ _ _ C1 C2 C3. pcarry G1.
      apply runseq_one. older. apply run_letrec. intros s2 k G2 EK LK. pcarry G2. cbn [map fst List.concat app List.length bind_env] in *.
      apply runrec_cons. stp. eapply runap_raises; [eapply (proj2 B); eauto|]. intros s3 G3. pcarry G3. cbv beta iota. auto.
  Qed.
End Text.
