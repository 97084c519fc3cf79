(** C52: the pair accessors do what their names say. *)
From Coq Require Import ZArith NArith Bool Ascii String List Lia.
From Verif Require Import Base Heap HeapM Equal Vectors VectorsThm Pairs.
Import ListNotations.

(** What the name says: for [c x1 ... xn r], take the component [xn] first and [x1]
    last. *)
Inductive component (h : heap) : string -> val -> val -> Prop :=
| CompEnd v : component h "r" v v
| CompCar rest v w a d : component h rest v w -> pair_at h w = Some (a, d) -> component h (String "a" rest) v a
| CompCdr rest v w a d : component h rest v w -> pair_at h w = Some (a, d) -> component h (String "d" rest) v d.

(** The names: every word of one to four letters [a] and [d]. *)
Fixpoint words (n : nat) : list string :=
  match n with
  | O => [""%string]
  | S m => map (String "a") (words m) ++ map (String "d") (words m)
  end.
Definition names : list string :=
  map (fun w => String "c" (append w "r")) (words 1 ++ words 2 ++ words 3 ++ words 4).

Fixpoint parse (s : string) : option (list step_op) :=
  match s with
  | String "r" EmptyString => Some []
  | String "a" r => option_map (fun l => l ++ [Car]) (parse r)
  | String "d" r => option_map (fun l => l ++ [Cdr]) (parse r)
  | _ => None
  end.

Lemma walk_app who x a b t h :
  walk who x (a ++ b) t h = match walk who x a t h with HOk w h' => walk who x b w h' | r => r end.
Proof.
  revert t; induction a as [|op a IH]; intros t; simpl; auto.
  destruct (pair_at h t) as [[c d]|]; auto.
Qed.
Lemma walk_heap who x ops t h : match walk who x ops t h with HOk _ h' => h' = h | HErr e h' => e = EArg who x /\ h' = h | _ => False end.
Proof. revert t; induction ops as [|op a IH]; intros t; simpl; auto. destruct (pair_at h t) as [[c d]|]; auto. apply IH. Qed.

Lemma walk_component who x : forall rest ops h v w, parse rest = Some ops ->
  (walk who x ops v h = HOk w h <-> component h rest v w).
Proof.
  induction rest as [|ch rest IH]; intros ops h v w Hp; [discriminate|].
  assert (Hc : (ch = "r"%char /\ rest = ""%string /\ ops = []) \/
               (exists o, ch = "a"%char /\ parse rest = Some o /\ ops = o ++ [Car]) \/
               (exists o, ch = "d"%char /\ parse rest = Some o /\ ops = o ++ [Cdr])).
  { destruct ch as [[] [] [] [] [] [] [] []]; cbn [parse] in Hp; try discriminate.
    - right; left. destruct (parse rest) eqn:E; [|discriminate]. injection Hp as <-. eauto.
    - left. destruct rest; [|discriminate]. injection Hp as <-. auto.
    - right; right. destruct (parse rest) eqn:E; [|discriminate]. injection Hp as <-. eauto. }
  destruct Hc as [(-> & -> & ->)|[(o & -> & Ho & ->)|(o & -> & Ho & ->)]].
  - simpl. split; [intros [= <-]; constructor|]. inversion 1; subst; auto.
  - rewrite walk_app. pose proof (walk_heap who x o v h) as W. split.
    + destruct (walk who x o v h) as [u h'|e h'| |] eqn:E; try discriminate. subst h'.
      simpl. destruct (pair_at h u) as [[a d]|] eqn:P; [|discriminate]. intros [= <-].
      econstructor; [apply (IH _ _ _ _ Ho); eauto|eauto].
    + inversion 1 as [|? ? u a d Hc Hq|? ? u a d Hc Hq]; subst. apply (IH _ _ _ _ Ho) in Hc. rewrite Hc. simpl. now rewrite Hq.
  - rewrite walk_app. pose proof (walk_heap who x o v h) as W. split.
    + destruct (walk who x o v h) as [u h'|e h'| |] eqn:E; try discriminate. subst h'.
      simpl. destruct (pair_at h u) as [[a d]|] eqn:P; [|discriminate]. intros [= <-].
      econstructor; [apply (IH _ _ _ _ Ho); eauto|eauto].
    + inversion 1 as [|? ? u a d Hc Hq|? ? u a d Hc Hq]; subst. apply (IH _ _ _ _ Ho) in Hc. rewrite Hc. simpl. now rewrite Hq.
Qed.

(** Every accessor of the table, on every value: the component its name says if it
    exists, otherwise an argument error naming accessor and argument; the heap is
    unchanged. *)
Theorem C52_accessors acc v h : In acc accessors ->
  exists letters, fst acc = String "c" letters /\
    match p_access acc v h with
    | HOk w h' => h' = h /\ component h letters v w
    | HErr e h' => h' = h /\ e = EArg (fst acc) v /\ forall w, ~ component h letters v w
    | HUndef | HFuel => False
    end.
Proof.
  intros Hin.
  assert (Hp : exists letters, fst acc = String "c" letters /\ parse letters = Some (snd acc)).
  { revert acc Hin. apply Forall_forall. repeat (constructor; [eexists; split; reflexivity|]). constructor. }
  destruct Hp as (letters & En & Hp). exists letters. split; auto. unfold p_access.
  pose proof (walk_heap (fst acc) v (snd acc) v h) as W. pose proof (walk_component (fst acc) v letters (snd acc) h v) as C.
  destruct (walk (fst acc) v (snd acc) v h) as [w h'|e h'| |]; auto.
  - subst. split; auto. apply C; auto.
  - destruct W as [-> ->]. repeat split; auto. intros w Hw. apply C in Hw; auto. discriminate.
Qed.
(** The table has exactly the names of one to four letters. *)
Theorem C52_names : forall n, In n (map fst accessors) <-> In n names.
Proof.
  assert (A : forall l m : list string, forallb (fun n => existsb (String.eqb n) m) l = true -> forall n, In n l -> In n m).
  { intros l m H n Hn. rewrite forallb_forall in H. specialize (H n Hn). apply existsb_exists in H.
    destruct H as (x & Hx & E). apply String.eqb_eq in E. now subst. }
  intros n; split; apply A; vm_compute; reflexivity.
Qed.

(** [set-car!] and [set-cdr!] change that one component of that one pair. *)
Theorem C52_set_car p x h :
  match p_set_car p x h with
  | HOk _ h' => only_changes p h h' /\ exists a d, pair_at h p = Some (a, d) /\ pair_at h' p = Some (x, d)
  | HErr e h' => h' = h /\ e = EArg "set-car!" p /\ pair_at h p = None
  | HUndef | HFuel => False
  end.
Proof.
  unfold p_set_car, pairp, m_set_car. destruct (pair_at h p) as [[a d]|] eqn:P; [|auto].
  destruct (pair_at_inv _ _ _ _ P) as (l & -> & E). assert (l < length h) by (apply nth_error_Some; congruence). rewrite P. split.
  - split; [apply upd_cell_length|]. intros m Hm. apply upd_cell_ne. congruence.
  - exists a, d. split; auto. apply pair_at_cons. now apply upd_cell_eq.
Qed.
Theorem C52_set_cdr p x h :
  match p_set_cdr p x h with
  | HOk _ h' => only_changes p h h' /\ exists a d, pair_at h p = Some (a, d) /\ pair_at h' p = Some (a, x)
  | HErr e h' => h' = h /\ e = EArg "set-cdr!" p /\ pair_at h p = None
  | HUndef | HFuel => False
  end.
Proof.
  unfold p_set_cdr, pairp, m_set_cdr. destruct (pair_at h p) as [[a d]|] eqn:P; [|auto].
  destruct (pair_at_inv _ _ _ _ P) as (l & -> & E). assert (l < length h) by (apply nth_error_Some; congruence). rewrite P. split.
  - split; [apply upd_cell_length|]. intros m Hm. apply upd_cell_ne. congruence.
  - exists a, d. split; auto. apply pair_at_cons. now apply upd_cell_eq.
Qed.

(** [(caddr '(1 2 3))], and on a list that is too short. *)
Definition ph : heap := [CPair (VFix 1) (VPtr 1); CPair (VFix 2) (VPtr 2); CPair (VFix 3) VNull].
Example caddr_ok : In ("caddr"%string, [Cdr; Cdr; Car]) accessors /\ p_access ("caddr"%string, [Cdr; Cdr; Car]) (VPtr 0) ph = HOk (VFix 3) ph.
Proof. split; [simpl; tauto|reflexivity]. Qed.
Example cadddr_err : p_access ("cadddr"%string, [Cdr; Cdr; Cdr; Car]) (VPtr 0) ph = HErr (EArg "cadddr" (VPtr 0)) ph.
Proof. reflexivity. Qed.

Print Assumptions C52_accessors.
Print Assumptions C52_names.
Print Assumptions C52_set_car.
Print Assumptions C52_set_cdr.
