(** Running the texts of PathText.v. *)
From Coq Require Import ZArith NArith Bool Ascii String List Arith Lia.
From Verif Require Import Base Heap HeapM Ast Sem Check Lists SimLemmas Path PathThm LibText LibTextProofs LibTextRun PathText PathTextProofs.
Import ListNotations.
Local Open Scope list_scope.

(** The procedure that has been called returns. *)
Ltac replied t :=
  eapply runap_returns; [t|]; let s := fresh "s" in let G := fresh "G" in intros s G; pcarry G; clear G; cbv beta iota.
Ltac replied_text t :=
  eapply runap_text; [t|]; let w := fresh "w" in let s := fresh "s" in let G := fresh "G" in let T := fresh "T" in intros w s G T; pcarry G; clear G; cbv beta iota.
Ltac replied_cons t :=
  eapply runap_cons; [t|]; let w := fresh "w" in let s := fresh "s" in let G := fresh "G" in let T := fresh "PR" in intros w s G T; pcarry G; clear G; cbv beta iota.

Section Text.
  Variable names : list string.
  Hypothesis HN : incl path_names names.
  Variable prim : N -> list val -> heap -> option presult.
  Variable complaint : val -> val -> err.
  Variable lit : obj -> val.
  Hypothesis HL : literals lit.
  Hypothesis HC : forall c, lit (OChar c) = VChar c.
  Variable s0 : store.
  Local Notation has := (has names s0).
  Local Notation later := (later names).

  Lemma path_name x : existsb (String.eqb x) path_names = true -> In x names.
  Proof. intros H. apply HN. apply existsb_exists in H. destruct H as (y & I & E). apply String.eqb_eq in E. now subst. Qed.
  Ltac nm := apply path_name; reflexivity.
  Ltac stp := repeat lib_step nm.

  Lemma loaded_is t x fm body (B : store -> val -> Prop) :
    code_of lit t = EDefine [Id x] (ELam fm body) -> loaded lit s0 t ->
    (forall s f, later s0 s -> good s -> proc_at f (procs_of s) = Some (PClo [(fm, body)] []) -> B s f) ->
    has x B.
  Proof.
    intros E (y & g & b & f & E' & G & N & P) H. rewrite E in E'. injection E' as <- <- <-. exists f. split; auto. split; auto.
    intros s1 L GD. apply H; auto. eapply later_proc; eauto.
  Qed.
  Ltac from_text LD :=
    match type of LD with loaded _ _ ?t =>
      let e := eval vm_compute in (code_of lit t) in
      match e with EDefine [Id ?x] (ELam ?fm ?body) =>
        apply (loaded_is t x fm body); [vm_cast_no_check (eq_refl e)|exact LD|]
      end
    end.
  Lemma zfix z : lit (OFix z) = VFix z.
  Proof. apply HL. Qed.
  Lemma zsym n : lit (OSym n) = VSym n.
  Proof. apply HL. Qed.
  Lemma znull : lit ONull = VNull.
  Proof. apply HL. Qed.
  Lemma zfalse : lit OFalse = VFalse.
  Proof. apply HL. Qed.
  Ltac enter lp s i CL PL := apply runseq_one; eapply run_loop; [assumption|];
    let G := fresh "G" in
    intros lp s G CL PL;
    match type of CL with cell_is _ (List.length (cells_of ?z)) _ => set (i := List.length (cells_of z)) in *; clearbody i end; pcarry G.

  Hypothesis Hstring : has "string?" (is_string prim).
  Hypothesis Hlen : has "string-length" (is_string_length prim).
  Hypothesis Href : has "string-ref" (is_string_ref prim).
  Hypothesis Hsub : has "substring" (is_substring prim).
  Hypothesis Happend : has "string-append" (is_string_append prim).
  Hypothesis Heq : has "eq?" (is_same_char prim).
  Hypothesis Hsame : has "=" (is_same_number prim).
  Hypothesis Hmore : has ">" (is_more prim).
  Hypothesis Hsum : has "+" (is_sum prim).
  Hypothesis Hminus : has "-" (is_minus prim).
  Hypothesis Hvoid : has "void" (is_void prim).
  Hypothesis Hrae : has "raise-argument-error" (is_complaint prim complaint).
  Hypothesis Hnull : has "null?" (is_null prim).
  Hypothesis Hpair : has "pair?" (is_pair prim).
  Hypothesis Hcons : has "cons" (is_cons prim).
  Hypothesis Hlist : has "list" (is_list1 prim).
  Hypothesis Happly : has "apply" (is_apply prim).
  Hypothesis Hcar : has "car" (is_car prim complaint).
  Hypothesis Hcdr : has "cdr" (is_cdr prim complaint).
  Hypothesis Hrev : has "reverse" (is_reverse prim complaint).

  Lemma is_absolute_ok : loaded lit s0 is_absolute_path_text -> has "is-absolute-path?" (is_is_absolute prim).
  Proof.
    intros LD. from_text LD. intros so f LT GD P. assert (R := grows_refl so). intros v t T. apply returns_run.
    eapply runap_clo1; [exact P|eapply text_bound; eauto|]. intros s1 b G1 _ C. pcarry G1. stp.
    replied ltac:(eapply B; eauto). stp. rewrite ?zfix. replied ltac:(apply B0). destruct t as [|c t].
    - cbn. stp. rewrite ?zfalse. auto.
    - replace (0 <? Z.of_nat (List.length (c :: t)))%Z with true by (symmetry; apply Z.ltb_lt; cbn; lia). cbn [of_bool truthy]. stp.
      rewrite ?zfix. replied ltac:(eapply (proj1 B1) with (n := 0); [eassumption|reflexivity]). stp. rewrite ?HC. replied ltac:(apply B2). auto.
  Qed.

  Lemma string_yes s f v t : is_string prim s f -> text_at (heap_of s) v t -> returns prim s f [v] VTrue.
  Proof. intros B T. specialize (B v). now rewrite (text_string _ _ _ T) in B. Qed.
  Lemma string_no s f v : is_string prim s f -> no_string (heap_of s) v -> returns prim s f [v] VFalse.
  Proof. intros B T. specialize (B v). now rewrite (no_string_is _ _ T) in B. Qed.
  Definition out_list (so : store) (xs : list (list byte)) (o : res) (s' : store) : Prop :=
    grows so s' /\ exists w ws, o = RVals [w] /\ list_at (heap_of s') w ws /\ Forall2 (element lit (heap_of s')) ws xs.
  Lemma Forall2_rev {A B} (P : A -> B -> Prop) xs ys : Forall2 P xs ys -> Forall2 P (rev xs) (rev ys).
  Proof. induction 1; cbn; [constructor|]. apply Forall2_app; auto. Qed.
  Lemma list_cons h v a d xs : pair_at h v = Some (a, d) -> list_at h d xs -> list_at h v (a :: xs).
  Proof. intros P H. apply pair_at_inv in P. destruct P as (l & -> & E). econstructor; eauto. Qed.
  Lemma split_at {A} (t : list A) n c : nth_error t n = Some c -> t = firstn n t ++ c :: skipn (n + 1) t.
  Proof.
    revert t. induction n as [|n IH]; intros [|d t] H; cbn in *; try discriminate; [injection H as <-; auto|]. f_equal. now apply IH.
  Qed.
  Lemma not_slash_elem x : ~ In slash x -> x <> [slash].
  Proof. intros N ->. apply N. now left. Qed.
  Lemma firstn_snoc {A} (t : list A) n c : nth_error t n = Some c -> firstn (n + 1) t = firstn n t ++ [c].
  Proof. revert t. induction n as [|n IH]; intros [|d t] H; cbn in *; try discriminate; [injection H as <-; auto|]. f_equal. now apply IH. Qed.

  Lemma path_list_ok : loaded lit s0 path_list_text -> has "path->list" (is_path_list prim complaint lit).
  Proof.
    intros LD. from_text LD. intros so f LT GD P. assert (R := grows_refl so). split.
    - intros v t xs T EL LE.
      assert (OUT : runap prim so f [v] (out_list so xs)).
      { eapply runap_clo1; [exact P|eapply text_bound; eauto|]. intros s1 b G1 _ C. pcarry G1. stp.
        replied ltac:(eapply string_yes; eauto). cbn [truthy]. stp. replied ltac:(apply B0). enter lp sl i CL PL.
        assert (LOOP : forall n t xs, List.length t <= n -> elements t xs -> forall z v l acc accx,
          grows so z -> later s0 z -> good z -> cell_is z i lp -> proc_at lp (procs_of z) = proc_at lp (procs_of sl) ->
          text_at (heap_of z) v t -> text_at (heap_of z) (lit (OStr [])) [] -> list_at (heap_of z) l acc -> Forall2 (element lit (heap_of z)) acc accx ->
          runap prim z lp [v; l] (out_list so (rev accx ++ xs))).
        { rewrite PL. clear - HN HL HC Hstring Hlen Href Hsub Heq Hsame Hsum Hcons Hrev.
          induction n as [n IH] using (well_founded_induction lt_wf). intros t xs LN EL z v l acc accx R LT GD CL PL T LE HA FA.
          eapply runap_clo2; [exact PL|eapply text_bound; eauto|eapply list_bound; eauto|]. intros s1 bp cp G1 _ _ C1 C2. pcarry G1. stp.
          replied ltac:(eapply B; eauto). stp. rewrite ?zfix. replied ltac:(apply B0).
          destruct t as [|ch t0].
          { cbn [List.length of_bool truthy Z.of_nat Z.eqb]. stp. 
            eapply runap_list; [eapply (proj1 B1); eauto|]. intros w s5 G5 LW. pcarry G5. split; auto. exists w, (rev acc). split; auto. split; auto.
            assert (X : xs = []) by (eapply elements_fun; [exact EL|constructor]). subst xs. rewrite app_nil_r. now apply Forall2_rev. }
          set (t := ch :: t0) in *. replace (Z.of_nat (List.length t) =? 0)%Z with false by (symmetry; apply Z.eqb_neq; cbn; lia). cbn [of_bool truthy].
          assert (NE : t <> []) by discriminate. clearbody t. clear ch t0.
          apply run_let_nil. intros s4 G4. pcarry G4. apply runseq_one. older. apply run_letrec. intros s5 k G5 EK LK. pcarry G5.
          cbn [map fst List.concat app List.length bind_env] in *.
          assert (LK0 : k < List.length (cells_of s5)) by lia. apply runrec_cons. stp. replied ltac:(eapply B1; eauto). intros s7 E7. assigned E7. apply runrec_nil. enter lp0 sm i0 CL0 PL0. 
          clear OLD OLD0 OLD1 OLD2 OLD3 EK LK.
          assert (LOOP2 : forall m i1, i1 + m = List.length t -> ~ In slash (firstn i1 t) -> forall z,
            grows so z -> later s0 z -> good z -> cell_is z i lp -> cell_is z bp v -> cell_is z cp l -> cell_is z k (VFix (Z.of_nat (List.length t))) -> cell_is z i0 lp0 ->
            proc_at lp (procs_of z) = proc_at lp (procs_of sm) -> proc_at lp0 (procs_of z) = proc_at lp0 (procs_of sm) ->
            text_at (heap_of z) v t -> text_at (heap_of z) (lit (OStr [])) [] -> list_at (heap_of z) l acc -> Forall2 (element lit (heap_of z)) acc accx ->
            runap prim z lp0 [VFix (Z.of_nat i1)] (out_list so (rev accx ++ xs))).
          { rewrite PL, PL0. clear - HN HL HC Hstring Hlen Href Hsub Heq Hsame Hsum Hcons Hrev IH LN EL NE.
            induction m as [|m IM]; intros i1 LI NI z R LT GD CL CB CC CK CL0 PL PL0 T LE HA FA;
              (eapply runap_clo1; [exact PL0|discriminate|]); intros s1 bi G1 _ CI; pcarry G1; stp; replied ltac:(apply B).
            - replace (Z.of_nat i1 =? Z.of_nat (List.length t))%Z with true by (symmetry; apply Z.eqb_eq; lia). cbn [of_bool truthy]. stp.
              replied_cons ltac:(exact B0). stp. assert (i1 = List.length t) by lia. subst i1. rewrite firstn_all in NI.
              assert (X : xs = [t]) by (eapply elements_fun; [exact EL|now constructor]). subst xs.
              replace (rev accx ++ [t]) with (rev (t :: accx) ++ []) by (cbn; now rewrite app_nil_r).
              destruct t as [|ch t0]; [congruence|]. cbn in LN.
              eapply (IH 0 ltac:(lia) [] []) with (acc := v :: acc); eauto using elements, list_cons. constructor; auto. right. split; auto using not_slash_elem.
            - replace (Z.of_nat i1 =? Z.of_nat (List.length t))%Z with false by (symmetry; apply Z.eqb_neq; lia). cbn [of_bool truthy]. stp.
              destruct (nth_error t i1) as [ch|] eqn:EN; [|apply nth_error_None in EN; lia].
              replied ltac:(eapply (proj1 B0); eauto). stp. rewrite ?HC. replied ltac:(apply B1). pose proof (split_at _ _ _ EN) as SP.
              pose proof (text_len _ _ _ T) as TL.
              destruct (Ascii.eqb_spec ch "/") as [->|NC]; cbn [of_bool truthy].
              + stp. rewrite ?zfix. replied ltac:(apply B2). destruct i1 as [|i1].
                * cbn [Z.of_nat Z.eqb of_bool truthy]. stp. rewrite ?zfix.
                  replied_text ltac:(eapply (B3 v t 1); [eassumption|lia|lia]). stp. replied_cons ltac:(exact B4). stp. cbn [firstn app] in SP. change (0 + 1) with 1 in SP.
                  replace (firstn (List.length t - 1) (skipn 1 t)) with (skipn 1 t) in * by (rewrite firstn_all2; auto; rewrite skipn_length; lia).
                  destruct (path_list_elements (skipn 1 t)) as (xs' & _ & EL').
                  assert (X : xs = [slash] :: xs') by (eapply elements_fun; [exact EL|rewrite SP; now constructor]). subst xs.
                  replace (rev accx ++ [slash] :: xs') with (rev ([slash] :: accx) ++ xs') by (cbn; now rewrite <- app_assoc).
                  eapply (IH (List.length (skipn 1 t))) with (acc := lit (OStr [slash]) :: acc); eauto using list_cons; [rewrite skipn_length; lia|].
                  constructor; auto. left. auto.
                * replace (Z.of_nat (S i1) =? 0)%Z with false by (symmetry; apply Z.eqb_neq; lia). cbn [of_bool truthy].
                  apply run_let_nil. intros s6 G6. pcarry G6. apply runseq_one. older. apply run_letrec. intros s7 k2 G7 EK LK. pcarry G7.
                  cbn [map fst List.concat app List.length bind_env] in *.
                  assert (LK0 : k2 < List.length (cells_of s7)) by lia. assert (LK1 : S k2 < List.length (cells_of s7)) by lia.
                  apply runrec_cons. stp. rewrite ?zfix. replied_text ltac:(eapply (B3 v t 0 (S i1)); [eassumption|lia|lia]). intros se Ee. assigned Ee.
                  apply runrec_cons. stp. rewrite ?zfix. replied ltac:(apply B4; lia). stp.
                  replace (Z.of_nat (S i1) + 1)%Z with (Z.of_nat (S i1 + 1)) by lia.
                  replied_text ltac:(eapply (B5 v t (S i1 + 1) (List.length t)); [eassumption|lia|lia]). intros sf Ef. assigned Ef.
                  apply runrec_nil. stp. replied_cons ltac:(exact B6). stp.
                  rewrite Nat.sub_0_r in *. change (skipn 0 t) with t in *.
                  replace (firstn (List.length t - (S i1 + 1)) (skipn (S i1 + 1) t)) with (skipn (S i1 + 1) t) in * by (rewrite firstn_all2; auto; rewrite skipn_length; lia).
                  destruct (path_list_elements (skipn (S i1 + 1) t)) as (xs' & _ & EL').
                  assert (NF : firstn (S i1) t <> []) by (destruct t; [congruence|discriminate]).
                  assert (X : xs = firstn (S i1) t :: xs') by (eapply elements_fun; [exact EL|rewrite SP at 1; now constructor]). subst xs.
                  replace (rev accx ++ firstn (S i1) t :: xs') with (rev (firstn (S i1) t :: accx) ++ xs') by (cbn [rev]; now rewrite <- app_assoc).
                  eapply (IH (List.length (skipn (S i1 + 1) t))) with (acc := w :: acc); eauto using list_cons; [rewrite skipn_length; lia|].
                  constructor; auto. right. split; auto using not_slash_elem.
              + stp. rewrite ?zfix. replied ltac:(apply B2; lia). replace (Z.of_nat i1 + 1)%Z with (Z.of_nat (i1 + 1)) by lia.
                stp. eapply IM; eauto; [lia|]. rewrite (firstn_snoc _ _ _ EN). intros I. apply in_app_or in I. destruct I as [I|[I|[]]]; [auto|apply NC; exact I].
             }
          stp. rewrite ?zfix. eapply (LOOP2 (List.length t) 0); eauto. }
        stp. rewrite znull. eapply (LOOP (List.length t) t xs) with (acc := []) (accx := []); eauto; constructor. }
      destruct OUT as (o & s' & A & G & w & ws & -> & LW & F). exists w, ws, s'. auto.
    - intros v NS. apply raises_run. eapply runap_clo1; [exact P|eapply no_string_bound; eauto|]. intros s1 b G1 _ C. pcarry G1. stp.
      replied ltac:(eapply string_no; eauto). cbn [truthy]. apply run_let_nil. intros s3 G3. pcarry G3. stp. rewrite ?zsym.
      eapply runap_raises; [apply B0|]. intros s5 G5. pcarry G5. auto.
  Qed.

  Lemma terminated_app a p : p <> [] -> terminated (a ++ p) = terminated p.
  Proof. intros N. unfold terminated. rewrite rev_app_distr. destruct (rev p) as [|c r] eqn:E; auto. apply (f_equal (@rev _)) in E. rewrite rev_involutive in E. cbn in E. congruence. Qed.
  Lemma terminated_nth p c : p <> [] -> nth_error p (List.length p - 1) = Some c -> terminated p = Ascii.eqb c slash.
  Proof.
    intros N E. destruct (exists_last N) as (q & d & ->). rewrite app_length in E. cbn in E. rewrite Nat.add_sub, nth_error_app2, Nat.sub_diag in E by lia.
    injection E as ->. unfold terminated. now rewrite rev_app_distr.
  Qed.
  (** The pieces that build-path puts together. *)
  Definition out_pieces (t : list byte) (o : res) (s' : store) : Prop :=
    exists w v vs p ps, o = RVals [w] /\ list_at (heap_of s') w (v :: vs) /\ text_at (heap_of s') v p /\
      Forall2 (text_at (heap_of s')) vs ps /\ List.concat (p :: ps) = t.
  Lemma pieces_rev h acc tacc : Forall2 (text_at h) acc tacc -> acc <> [] ->
    exists v vs p ps, rev acc = v :: vs /\ text_at h v p /\ Forall2 (text_at h) vs ps /\ List.concat (p :: ps) = List.concat (rev tacc).
  Proof.
    intros F N. apply Forall2_rev in F. inversion F as [E1 E2|v p vs ps TV FV E1 E2].
    - apply (f_equal (@rev _)) in E1. rewrite rev_involutive in E1. cbn in E1. congruence.
    - exists v, vs, p, ps. auto.
  Qed.

  (** The local procedure of build-path that looks at the last character. *)
  Definition ends_code (i j m n : nat) : sproc :=
    PClo [(Formals [Id "str"] None,
           [ELetrec [([Id "len"], EApp (EVar (Id "string-length")) [EVar (Id "str")])]
              [EApp (EVar (Id "eq?"))
                 [EApp (EVar (Id "string-ref")) [EVar (Id "str"); EApp (EVar (Id "-")) [EVar (Id "len"); EConst (lit (OFix 1))]];
                  EConst (lit (OChar "/"))]]])]
         [(Id "paths", i); (Id "string-terminates-with-/?", j); (Id "subpaths", m); (Id "base", n)].
  Lemma ends_ok z g i j m n v t (Q : res -> store -> Prop) :
    later s0 z -> good z -> proc_at g (procs_of z) = Some (ends_code i j m n) -> text_at (heap_of z) v t ->
    (t <> [] -> forall s', grows z s' -> Q (RVals [of_bool (terminated t)]) s') -> (t = [] -> forall y s', grows z s' -> Q (RErr y) s') ->
    runap prim z g [v] Q.
  Proof.
    intros LT GD P T Q1 Q2. assert (R := grows_refl z). eapply runap_clo1; [exact P|eapply text_bound; eauto|]. intros s1 b G1 _ C. pcarry G1.
    apply runseq_one. older. apply run_letrec. intros s2 k G2 EK LK. pcarry G2. cbn [map fst List.concat app List.length bind_env] in *.
    assert (LK0 : k < List.length (cells_of s2)) by lia. apply runrec_cons. stp. replied ltac:(eapply B; eauto). intros s4 E4. assigned E4.
    apply runrec_nil. pose proof (text_len _ _ _ T) as TL. stp. rewrite ?zfix. replied ltac:(apply B0; lia). stp.
    destruct t as [|c t].
    - destruct (proj2 B1 v [] (Z.of_nat 0 - 1)%Z T ltac:(lia)) as (y & RA). eapply runap_raises; [exact RA|]. intros s6 G6. pcarry G6. auto.
    - set (u := c :: t) in *. assert (NE : u <> []) by discriminate. assert (LU : 0 < List.length u) by (cbn; lia). clearbody u.
      replace (Z.of_nat (List.length u) - 1)%Z with (Z.of_nat (List.length u - 1)) by lia.
      destruct (nth_error u (List.length u - 1)) as [d|] eqn:EN; [|apply nth_error_None in EN; lia].
      replied ltac:(eapply (proj1 B1); eauto). stp. rewrite ?HC. replied ltac:(apply B2). pose proof (terminated_nth _ _ NE EN) as TN. unfold slash in TN. rewrite <- TN. auto.
  Qed.

  Lemma build_path_ok : loaded lit s0 build_path_text -> has "build-path" (is_build_path prim lit).
  Proof.
    intros LD. from_text LD. intros so f LT GD P. assert (R := grows_refl so).
    assert (ALL : forall v vs t ts, text_at (heap_of so) v t -> Forall2 (text_at (heap_of so)) vs ts ->
      text_at (heap_of so) (lit (OStr [slash])) [slash] -> (Z.of_nat (List.length (joined t ts)) < 2 ^ 62)%Z \/ t = [] ->
      runap prim so f (v :: vs) (fun o s' => grows so s' /\
        (t <> [] \/ Forall (eq []) ts -> exists w, o = RVals [w] /\ text_at (heap_of s') w (joined t ts)) /\
        (t = [] -> ~ Forall (eq []) ts -> exists y, o = RErr y))).
    { intros v vs t ts T F LS LEN.
      eapply runap_rest1; [exact P|eapply text_bound; eauto|]. intros s1 b c l G1 C1 C2 LL.  pcarry G1. apply runseq_one. older. apply run_letrec.
      intros s2 k G2 EK LK. pcarry G2. cbn [map fst List.concat app List.length bind_env] in *.
      assert (LK0 : k < List.length (cells_of s2)) by lia. assert (LK1 : S k < List.length (cells_of s2)) by lia.
      apply runrec_cons. apply run_lam; [assumption|]. intros tw s3 G3 PT NT. pcarry G3. intros s4 E4. assigned E4.
      apply runrec_cons. apply run_loop; [assumption|]. intros lp sl GL CL PL.
      match type of CL with cell_is _ (List.length (cells_of ?z)) _ => set (i := List.length (cells_of z)) in *; clearbody i end. pcarry GL.
      assert (LOOP : forall zz ts vs l z a ta acc tacc w, grows zz z -> later s0 z -> good z -> cell_is z i lp -> cell_is z k tw ->
        proc_at lp (procs_of z) = proc_at lp (procs_of sl) -> proc_at tw (procs_of z) = Some (ends_code (S k) k c b) ->
        list_at (heap_of z) l vs -> Forall2 (text_at (heap_of z)) vs ts -> list_at (heap_of z) w (a :: acc) -> text_at (heap_of z) a ta ->
        Forall2 (text_at (heap_of z)) acc tacc -> text_at (heap_of z) (lit (OStr [slash])) [slash] ->
        runap prim z lp [l; w] (fun o s' => grows zz s' /\ (ta <> [] \/ Forall (eq []) ts -> out_pieces (joined (List.concat (rev (ta :: tacc))) ts) o s') /\
           (ta = [] -> ~ Forall (eq []) ts -> exists y, o = RErr y))).
      { rewrite PL. clear - HN HL HC Hlen Href Heq Hsame Hminus Hcons Hrev Hnull Hcar Hcdr.
        intros zz. induction ts as [|x ts IH]; intros vs l z a ta acc tacc w R LT GD CL CK PL PT HL0 F HW TA FA LS;
          (eapply runap_clo2; [exact PL|eapply list_bound; eauto|eapply list_bound; eauto|]); intros s1 bp cp G1 _ _ D1 D2; pcarry G1; stp.
        - inversion F; subst vs. inversion HL0; subst l. replied ltac:(apply null_yes; auto). cbn [truthy]. stp.
          eapply runap_list; [eapply (proj1 B0); eauto|]. intros u s4 G4 LU. pcarry G4. split; auto. split; [|intros _ N; destruct N; constructor].
          intros _. destruct (pieces_rev (heap_of s4) (a :: acc) (ta :: tacc)) as (v & vs & p & ps & E1 & E2 & E3 & E4); [constructor; eassumption|discriminate|].
          rewrite E1 in LU. exists u, v, vs, p, ps. cbn [joined]. auto.
        - inversion F as [|v ? vs' ? TV FV]; subst vs. inversion HL0 as [|lo ? d ? EN LD]; subst. clear HL0 F.
          assert (PV : pair_at (heap_of s1) (VPtr lo) = Some (v, d)) by (cbn; now rewrite EN). clear EN.
          assert (PW : exists dw, pair_at (heap_of s1) w = Some (a, dw)) by (inversion HW as [|lw ? dw ? EW LW]; subst; exists dw; cbn; now rewrite EW). destruct PW as (dw & PW).
          replied ltac:(eapply null_no; eauto using pair_null). cbn [truthy]. stp. replied ltac:(eapply (proj1 B0); eauto). stp.
          replied ltac:(eapply B1; eauto). stp. rewrite ?zfix. replied ltac:(apply B2). destruct x as [|ch x].
          + cbn [List.length Z.of_nat Z.eqb of_bool truthy]. stp. replied ltac:(eapply (proj1 B3); eauto). stp.
            eapply runap_imp; [eapply (IH vs' d); eassumption|]. intros o s' (Q1 & Q2 & Q3). split; auto. split.
            * intros H. cbn [joined]. apply Q2. destruct H as [H|H]; [left; auto|right; now inversion H].
            * intros E N. apply Q3; auto.
          + set (u := ch :: x) in *. replace (Z.of_nat (List.length u) =? 0)%Z with false by (symmetry; apply Z.eqb_neq; cbn; lia). cbn [of_bool truthy].
            assert (NU : u <> []) by discriminate. assert (JU : forall q, joined q (u :: ts) = joined (if terminated q then q ++ u else q ++ slash :: u) ts) by reflexivity. clearbody u.
            stp. replied ltac:(eapply (proj1 B3); eauto). stp. eapply ends_ok; [eassumption|eassumption|eassumption|eassumption| |].
            * intros NA s8 G8. pcarry G8. cbv beta iota. destruct (terminated ta) eqn:TT; cbn [of_bool truthy]; stp.
              -- replied ltac:(eapply (proj1 B4); eauto). stp. replied ltac:(eapply (proj1 B5); eauto). stp. replied_cons ltac:(exact B6). stp.
                 eapply runap_imp; [eapply (IH vs' d) with (acc := a :: acc) (tacc := ta :: tacc); try eassumption; [eapply list_cons; eassumption|constructor; assumption]|].
                 intros o s' (Q1 & Q2 & Q3). split; auto. split; [|congruence]. intros _.
                 rewrite JU. replace (terminated (List.concat (rev (ta :: tacc)))) with true by (cbn [rev]; rewrite concat_app; cbn [List.concat]; rewrite app_nil_r, terminated_app; auto).
                 replace (List.concat (rev (ta :: tacc)) ++ u) with (List.concat (rev (u :: ta :: tacc))); [apply Q2; left; auto|].
                 cbn [rev]. rewrite !concat_app. cbn [List.concat]. now rewrite !app_nil_r.
              -- replied ltac:(eapply (proj1 B4); eauto). stp. replied ltac:(eapply (proj1 B5); eauto). stp. replied_cons ltac:(exact B6). stp. replied_cons ltac:(exact B7). stp.
                 eapply runap_imp; [eapply (IH vs' d) with (acc := lit (OStr [slash]) :: a :: acc) (tacc := [slash] :: ta :: tacc); try eassumption;
                   [eapply list_cons; [eassumption|eapply list_cons; eassumption]|constructor; [assumption|constructor; assumption]]|].
                 intros o s' (Q1 & Q2 & Q3). split; auto. split; [|congruence]. intros _.
                 rewrite JU. replace (terminated (List.concat (rev (ta :: tacc)))) with false by (cbn [rev]; rewrite concat_app; cbn [List.concat]; rewrite app_nil_r, terminated_app; auto).
                 replace (List.concat (rev (ta :: tacc)) ++ slash :: u) with (List.concat (rev (u :: [slash] :: ta :: tacc))); [apply Q2; left; auto|].
                 cbn [rev]. rewrite !concat_app. cbn [List.concat]. rewrite !app_nil_r, <- !app_assoc. reflexivity.
            * intros EA y s8 G8. pcarry G8. cbv beta iota. split; auto. split; [|eauto]. intros [H|H]; [congruence|]. inversion H; congruence. }
      assert (D : {Forall (eq []) ts} + {~ Forall (eq []) ts}) by (apply Forall_dec; intros [|? ?]; [left; auto|right; discriminate]).
      rewrite PL in LOOP. stp. eapply runap_list; [apply B|]. intros w s5 G5 LW. pcarry G5. stp.
      eapply runap_imp; [eapply (LOOP s5 ts vs l s5 v t [] [] w); try eassumption; [apply grows_refl|constructor]|].
      intros o s6 (G6 & O1 & O2). clear LOOP PL. pcarry G6.
      assert (YES : t <> [] \/ Forall (eq []) ts \/ t = [] /\ ~ Forall (eq []) ts) by (destruct t; [destruct D; auto|left; discriminate]).
      destruct YES as [NE|[NE|[-> NE]]]; [| |destruct (O2 eq_refl NE) as (y & ->); split; auto; split; [intros [H|H]; congruence|eauto]].
      all: destruct (O1 ltac:(auto)) as (u & v1 & vs1 & p1 & ps1 & -> & LU & TV & FV & CE); cbn [rev app List.concat] in CE; rewrite app_nil_r in CE;
        assert (LEN1 : (Z.of_nat (List.length (p1 ++ List.concat ps1)) < 2 ^ 62)%Z)
          by (rewrite CE; destruct LEN as [LEN|LEN]; [exact LEN|]; subst t; first [congruence|replace (joined [] ts) with (@nil byte); [cbn; lia|clear - NE; induction NE as [|x r E F IH]; [reflexivity|subst x; exact IH]]]);
        intros s7 E7; pose proof (cell_lt _ _ _ CL); assigned E7; apply runrec_nil; apply runseq_one;
        (eapply run_call; [exact Happly|reflexivity|nm|eassumption|]); apply runargs_cons; (eapply run_global; [exact Happend|reflexivity|nm|eassumption|]);
        intros ga NG BG; cbv beta iota; stp;
        destruct (BG s7 ltac:(assumption) ltac:(assumption) v1 vs1 p1 ps1 TV FV LEN1) as (r & s8 & A8 & G8 & T8); cbn [List.concat] in T8; rewrite CE in T8;
        exists (RVals [r]), s8; (split; [eapply B0; eassumption|]); pcarry G8; (split; [assumption|]); (split; [eauto|congruence || contradiction]). }
    split.
    - intros v vs t ts T F NE LS LEN. destruct (ALL v vs t ts T F LS (or_introl LEN)) as (o & s' & A & G & O & _).
      destruct (O NE) as (w & -> & TW). exists w, s'. auto.
    - intros v vs ts T F N LS. destruct (ALL v vs [] ts T F LS (or_intror eq_refl)) as (o & s' & A & G & _ & O).
      destruct (O eq_refl N) as (y & ->). exists y, s'. auto.
  Qed.

  (** Putting the elements of a path together again gives a path that is no longer. *)
  Lemma joined_more xs : forall ys t, List.length (joined t xs) <= List.length (joined t (xs ++ ys)).
  Proof.
    assert (M : forall ys t, List.length t <= List.length (joined t ys)).
    { induction ys as [|[|c y] ys IH]; intros t; cbn [joined]; auto. eapply Nat.le_trans; [|apply IH]. destruct (terminated t); rewrite app_length; lia. }
    induction xs as [|[|c x] xs IH]; intros ys t; cbn [joined app]; auto.
  Qed.
  Lemma joined_elements t xs : elements t xs -> forall a, a <> [] ->
    List.length (joined a xs) <= List.length a + List.length t + (if terminated a then 0 else 1).
  Proof.
    induction 1 as [|e NE NI|e r xs NE NI EL IH|r xs EL IH]; intros a NA.
    - cbn. lia.
    - destruct e as [|c e]; [congruence|]. cbn [joined]. destruct (terminated a); rewrite app_length; cbn [List.length]; lia.
    - assert (NT : terminated e = false).
      { destruct (exists_last NE) as (q & d & ->). unfold terminated. rewrite rev_app_distr. cbn. apply Ascii.eqb_neq. intros ->. apply NI. apply in_or_app. right. now left. }
      set (u := if terminated a then a ++ e else a ++ slash :: e).
      assert (J : joined a (e :: xs) = joined u xs) by (destruct e; [congruence|reflexivity]). rewrite J.
      assert (NU : u <> []) by (unfold u; destruct (terminated a), a; congruence || discriminate).
      assert (TU : terminated u = false).
      { unfold u. destruct (terminated a); [rewrite terminated_app; auto|]. change (a ++ slash :: e) with (a ++ [slash] ++ e). rewrite app_assoc, terminated_app; auto. }
      specialize (IH u NU). rewrite TU in IH. rewrite app_length. cbn [List.length].
      assert (LU : List.length u <= List.length a + List.length e + (if terminated a then 0 else 1)) by (unfold u; destruct (terminated a); rewrite app_length; cbn [List.length]; lia). lia.
    - cbn [joined List.length]. set (u := if terminated a then a ++ [slash] else a ++ [slash; slash]).
      assert (NU : u <> []) by (unfold u; destruct (terminated a), a; congruence || discriminate).
      assert (TU : terminated u = true) by (unfold u; destruct (terminated a); rewrite terminated_app by discriminate; reflexivity).
      specialize (IH u NU). rewrite TU in IH.
      assert (LU : List.length u <= List.length a + 1 + (if terminated a then 0 else 1)) by (unfold u; destruct (terminated a); rewrite app_length; cbn [List.length]; lia). lia.
  Qed.
  Lemma elements_first t x xs : elements t (x :: xs) -> x <> [] /\ List.length (joined x xs) <= List.length t.
  Proof.
    intros H. inversion H as [|e NE NI E1 E2|e r ys NE NI EL E1 E2|r ys EL E1 E2]; subst.
    - split; auto.
    - split; auto. pose proof (joined_elements _ _ EL x NE) as L. rewrite app_length. cbn [List.length]. destruct (terminated x); lia.
    - split; [discriminate|]. pose proof (joined_elements _ _ EL [slash] ltac:(discriminate)) as L. cbn in *. lia.
  Qed.
  Lemma elements_filled t xs : elements t xs -> Forall (fun x => x <> []) xs.
  Proof. induction 1; constructor; auto. discriminate. Qed.
  Lemma element_text h v x : text_at h (lit (OStr [slash])) [slash] -> element lit h v x -> text_at h v x.
  Proof. intros L [[-> ->]|[_ T]]; auto. Qed.
  Lemma element_texts h vs xs : text_at h (lit (OStr [slash])) [slash] -> Forall2 (element lit h) vs xs -> Forall2 (text_at h) vs xs.
  Proof. intros L. induction 1; constructor; auto using element_text. Qed.
  Lemma runap_elements s f v t xs (Q : res -> store -> Prop) : is_path_list prim complaint lit s f -> text_at (heap_of s) v t -> elements t xs ->
    text_at (heap_of s) (lit (OStr [])) [] ->
    (forall w ws s', grows s s' -> list_at (heap_of s') w ws -> Forall2 (element lit (heap_of s')) ws xs -> Q (RVals [w]) s') -> runap prim s f [v] Q.
  Proof. intros B T E L H. destruct (proj1 B v t xs T E L) as (w & ws & s' & A & G & LW & F). exists (RVals [w]), s'. split; eauto. Qed.
  Hypothesis Hplist : has "path->list" (is_path_list prim complaint lit).
  Hypothesis Hbuild : has "build-path" (is_build_path prim lit).
  Lemma list_pair h w a ws : list_at h w (a :: ws) -> exists d, pair_at h w = Some (a, d) /\ list_at h d ws.
  Proof. intros H. inversion H as [|l ? d ? E L]; subst. exists d. split; auto. cbn. now rewrite E. Qed.

  Lemma split_path_ok : loaded lit s0 split_path_text -> has "split-path" (is_split_path prim complaint lit).
  Proof.
    intros LD. from_text LD. intros so f LT GD P. assert (R := grows_refl so).
    assert (ALL : forall v t xs, text_at (heap_of so) v t -> elements t xs -> text_at (heap_of so) (lit (OStr [])) [] ->
      (2 <= List.length xs -> text_at (heap_of so) (lit (OStr [slash])) [slash]) ->
      runap prim so f [v] (fun o s' => grows so s' /\
        (xs = [] -> o = RErr (complaint (sym "cdr") VNull)) /\
        (forall x, xs = [x] -> exists w e, o = RVals [w] /\ pair_at (heap_of s') w = Some (VFalse, e) /\ element lit (heap_of s') e x) /\
        (forall x0 ys x, xs = x0 :: ys ++ [x] -> exists w d e, o = RVals [w] /\ pair_at (heap_of s') w = Some (d, e) /\
           text_at (heap_of s') d (joined x0 ys) /\ element lit (heap_of s') e x))).
    { intros v t xs T EL LE LS.
      eapply runap_clo1; [exact P|eapply text_bound; eauto|]. intros s1 b G1 _ C.
      pcarry G1. stp. replied ltac:(eapply string_yes; eauto). cbn [truthy]. stp. replied ltac:(apply B0). 
      apply runseq_one. older. apply run_letrec. intros s3 k G3 EK LK. pcarry G3. cbn [map fst List.concat app List.length bind_env] in *.
      assert (LK0 : k < List.length (cells_of s3)) by lia. apply runrec_cons. stp.
      eapply runap_elements; [eassumption|eassumption|eassumption|eassumption|]. intros w ws s4 G4 LW F. pcarry G4. cbv beta iota. stp.
      eapply runap_list; [eapply (proj1 B2); eauto|]. intros u s5 G5 LU. pcarry G5. intros s6 E6. assigned E6. apply runrec_nil.
      apply Forall2_rev in F. destruct (rev xs) as [|x rx] eqn:RX; inversion F as [E1 E2|e ? rs ? EE FF E1 E2]; clear F.
      - rewrite <- E1 in LU. inversion LU; subst u. stp. eapply runap_raises; [apply (proj2 B3); exact I|]. intros s7 G7. pcarry G7.
        assert (xs = []) by (apply (f_equal (@rev _)) in RX; now rewrite rev_involutive in RX). subst xs. split; auto. split; auto. split; [discriminate|]. intros ? [|? ?] ? X; discriminate X.
      - rewrite <- E1 in LU. destruct (list_pair _ _ _ _ LU) as (d & PU & LDT). stp. replied ltac:(eapply (proj1 B3); eauto).
        destruct rx as [|y2 ry]; inversion FF as [E3 E4|e2 ? rs2 ? EE2 FF2 E3 E4]; subst.
        + inversion LDT; subst d. stp. replied ltac:(eapply pair_no; [eassumption|exact I]). cbn [truthy]. stp. rewrite ?zfalse. replied ltac:(eapply (proj1 B5); eauto). stp.
          replied_cons ltac:(exact B6). assert (X : xs = [x]) by (apply (f_equal (@rev _)) in RX; now rewrite rev_involutive in RX). subst xs.
          split; auto. split; [discriminate|]. split; [intros ? [= <-]; eauto|]. intros ? [|? [|? ?]] ? X; discriminate X.
        + destruct (list_pair _ _ _ _ LDT) as (d2 & PD & LD2). stp. replied ltac:(eapply pair_yes; eauto). cbn [truthy].
          apply run_let_nil. intros sa Ga. pcarry Ga. apply runseq_one. older. apply run_letrec. intros sb k2 Gb EK2 LK2. pcarry Gb.
          cbn [map fst List.concat app List.length bind_env] in *.
          assert (LK3 : k2 < List.length (cells_of sb)) by lia. assert (LK4 : S k2 < List.length (cells_of sb)) by lia.
          assert (XS : xs = rev (x :: y2 :: ry)) by (now rewrite <- RX, rev_involutive).
          assert (LS1 : text_at (heap_of sb) (lit (OStr [slash])) [slash])
            by (apply (grows_text _ _ _ _ R); apply LS; rewrite XS, rev_length; cbn; lia).
          assert (NB : e <> VUnbound) by (eapply text_bound; eapply element_text; eauto).
          apply runrec_cons. stp. replied ltac:(eapply (proj1 B5); eauto). intros sc Ec. assigned Ec.
          apply runrec_cons. stp. replied ltac:(eapply (proj1 B6); eauto). intros sd Ed. assigned Ed. apply runrec_nil. apply runseq_one.
          (eapply run_call; [exact Hcons|reflexivity|nm|eassumption|]). apply runargs_cons.
          (eapply run_call; [exact Happly|reflexivity|nm|eassumption|]). apply runargs_cons. (eapply run_global; [exact Hbuild|reflexivity|nm|eassumption|]).
          intros gb NGB BGB. cbv beta iota. stp. eapply runap_list; [eapply (proj1 B7); eauto|]. intros q se Ge LQ. pcarry Ge. stp.
          assert (FZ : Forall2 (text_at (heap_of se)) (rev (e2 :: rs2)) (rev (y2 :: ry))) by (apply Forall2_rev; constructor; [eapply element_text; eauto|eapply element_texts; eauto]).
          assert (XS2 : xs = rev (y2 :: ry) ++ [x]) by (rewrite XS; reflexivity).
          destruct (rev (y2 :: ry)) as [|x0 ys] eqn:RY; [apply (f_equal (@List.length _)) in RY; rewrite rev_length in RY; discriminate|].
          inversion FZ as [|v0 ? vs0 ? TV0 FV0 Z1 Z2]. cbn [rev] in LQ. rewrite <- Z1 in LQ. clear FZ.
          rewrite XS2 in EL. cbn [app] in EL. destruct (elements_first _ _ _ EL) as [NX0 LJ]. pose proof (joined_more ys [x] x0) as LJ2. pose proof (text_len _ _ _ T) as TLN.
          destruct (proj1 (BGB se ltac:(assumption) ltac:(assumption)) v0 vs0 x0 ys TV0 FV0 (or_introl NX0) LS1 ltac:(lia)) as (r & sg & Ag & Gg & Tg).
          exists (RVals [r]), sg. split; [eapply B8; eassumption|]. pcarry Gg. cbv beta iota. stp. replied_cons ltac:(exact B9).
          split; auto. split; [rewrite XS2; discriminate|]. split; [rewrite XS2; intros ? X; injection X as _ X; destruct ys; discriminate X|].
          intros a0 as0 a X. rewrite XS2 in X. cbn [app] in X. injection X as -> X. apply app_inj_tail in X. destruct X as [-> ->]. exists w0, r, e. auto. }
    split; [|split; [|split]].
    - intros v t x T EL LE. destruct (ALL v t [x] T EL LE ltac:(cbn; lia)) as (o & s' & A & G & _ & O & _). destruct (O x eq_refl) as (w & e & -> & Q1 & Q2). exists w, e, s'. auto.
    - intros v t x0 xs x T EL LE LS. destruct (ALL v t _ T EL LE (fun _ => LS)) as (o & s' & A & G & _ & _ & O). destruct (O x0 xs x eq_refl) as (w & d & e & -> & Q). exists w, d, e, s'. auto.
    - intros v T LE. destruct (ALL v [] [] T el_nil LE ltac:(cbn; lia)) as (o & s' & A & G & O & _). rewrite O in A by auto. exists s'. auto.
    - intros v NS. apply raises_run. eapply runap_clo1; [exact P|eapply no_string_bound; eauto|]. intros s1 b G1 _ C. pcarry G1. stp.
      replied ltac:(eapply string_no; eauto). cbn [truthy]. apply run_let_nil. intros s3 G3. pcarry G3. stp. rewrite ?zsym.
      eapply runap_raises; [apply B0|]. intros s5 G5. pcarry G5. auto.
  Qed.
End Text.
