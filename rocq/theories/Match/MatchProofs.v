(** Proofs about the pattern matcher. *)
From Coq Require Import String List Arith Bool Lia.
From Verif.Base Require Import Py.
From Verif.Graph Require Import Model.
From Verif.Match Require Import Model Spec.
Import ListNotations.
Open Scope string_scope.
Open Scope list_scope.

(* ------------------------------------------------------------------------ *)
(** * Induction over patterns *)

Section PInd.
Variable Q : pattern -> Prop.
Hypothesis H1 : forall n rs, Q (Elem n rs).
Hypothesis H2 : forall ps, Forall Q ps -> Q (Choice ps).
Hypothesis H3 : forall ps, Forall Q ps -> Q (Lst ps).
Hypothesis H4 : forall p i o, Q p ->
  match i with None => True | Some ps => Forall Q ps end ->
  match o with None => True | Some ps => Forall Q ps end -> Q (Internal p i o).
Hypothesis H5 : forall p, Q p -> Q (Neg p).
Hypothesis H6 : Q Any.
Hypothesis H7 : Q AnyNoConsume.
Fixpoint pattern_rec' (p : pattern) : Q p :=
  let all := fix all (l : list pattern) : Forall Q l :=
    match l with [] => Forall_nil _ | x :: l' => Forall_cons _ (pattern_rec' x) (all l') end in
  match p with
  | Elem n rs => H1 n rs
  | Choice ps => H2 ps (all ps)
  | Lst ps => H3 ps (all ps)
  | Internal p i o => H4 p i o (pattern_rec' p)
      (match i with None => I | Some ps => all ps end)
      (match o with None => I | Some ps => all ps end)
  | Neg p => H5 p (pattern_rec' p)
  | Any => H6
  | AnyNoConsume => H7
  end.
End PInd.

(* ------------------------------------------------------------------------ *)
(** * Looking through identities *)

Lemma sees_det g t t1 t2 : sees g t t1 -> sees g t t2 -> t1 = t2.
Proof.
  intros H. revert t2. induction H as [t E|t s t' E I S IH|t s r t' E I S IH]; intros t2 K;
    inversion K as [? E'|? s' ? E' I' S'|? s' r' ? E' I' S']; subst; try congruence.
  - unfold is_identity in E. rewrite E' in E. discriminate.
  - apply IH. congruence.
  - unfold is_identity in E'. rewrite E in E'. discriminate.
  - apply IH. congruence.
Qed.

(** The chain of producers that a [sees] derivation goes through. *)
Inductive chain (g : tgraph) : nat -> list nat -> nat -> Prop :=
| ch_nil t : is_identity g (producer g t) = false -> chain g t [] t
| ch_cons t s l t' : is_identity g (producer g t) = true ->
    (op_inputs g (producer g t) = [s] \/
     (exists rest, op_inputs g (producer g t) = s :: s :: rest) /\ tg_type g (producer g t) = "IdentityN") ->
    chain g s l t' -> chain g t (producer g t :: l) t'.

Lemma sees_chain g t t' : sees g t t' -> exists l, chain g t l t'.
Proof.
  intros H. induction H.
  - exists []. constructor. assumption.
  - destruct IHsees as [l C]. exists (producer g t :: l). econstructor; eauto.
  - destruct IHsees as [l C]. exists (producer g t :: l). econstructor; eauto.
    unfold is_identity. rewrite H. reflexivity.
Qed.

Lemma chain_reduce g t l t' n : chain g t l t' -> length l <= n -> reduce_loop n g t = Ok t'.
Proof.
  intros C. revert n. induction C as [t E|t s l t' E [I|[[r I] T]] C IH]; intros n L.
  - destruct n; simpl; rewrite E; reflexivity.
  - destruct n; simpl in L; [lia|]. simpl. rewrite E, I. apply IH. lia.
  - destruct n; simpl in L; [lia|]. simpl. rewrite E, I, T. simpl. rewrite Nat.eqb_refl. apply IH. lia.
Qed.

(** The chain from an operation is determined by the operation. *)
Lemma chain_det g t l t' : chain g t l t' -> forall u m u', producer g u = producer g t -> chain g u m u' -> m = l.
Proof.
  intros C. induction C as [t E|t s l t' E I C IH]; intros u m u' P D.
  - inversion D as [?|? ? ? ? Eu]; subst; [reflexivity|]. rewrite P in Eu. congruence.
  - inversion D as [? Eu|? s' m' ? Eu Iu D']; subst; [rewrite P in Eu; congruence|].
    rewrite P in Iu. rewrite P. f_equal.
    assert (s' = s) as ->.
    { destruct I as [I|[[r I] T]], Iu as [Iu|[[r' Iu] Tu]]; rewrite I in Iu; congruence. }
    eapply IH; eauto.
Qed.

Lemma chain_suffix g t l t' : chain g t l t' ->
  forall a l1 l2, l = l1 ++ a :: l2 -> exists u, producer g u = a /\ chain g u (a :: l2) t'.
Proof.
  intros C. induction C as [t E|t s l t' E I C IH]; intros a l1 l2 Q.
  - destruct l1; discriminate.
  - destruct l1 as [|x l1]; simpl in Q; injection Q as ? ?; subst.
    + exists t. split; [reflexivity|]. econstructor; eauto.
    + eapply IH. reflexivity.
Qed.

Lemma chain_nodup g t l t' : chain g t l t' -> NoDup l.
Proof.
  intros C. induction C as [t E|t s l t' E I C IH]; [constructor|].
  constructor; [|exact IH]. intros H. apply in_split in H as (l1 & l2 & ->).
  destruct (chain_suffix _ _ _ _ C _ l1 l2 eq_refl) as (u & Pu & Cu).
  pose proof (chain_det _ _ _ _ Cu t _ _ (eq_sym Pu)
    (ch_cons g t s _ t' E I C)) as Q.
  apply (f_equal (@length nat)) in Q. simpl in Q. rewrite app_length in Q. simpl in Q. lia.
Qed.

Lemma chain_producers g t l t' : chain g t l t' -> forall o, In o l -> exists u, producer g u = o.
Proof. intros C. induction C as [|? ? ? ? ? ? ? IH]; simpl; [tauto|]. intros o [<-|Ho]; eauto. Qed.

Lemma wf_reduce g : wf_graph g -> forall t t', sees g t t' -> reduce_identity_ops g t = Ok t'.
Proof.
  intros [B _] t t' S. destruct (sees_chain _ _ _ S) as [l C].
  apply (chain_reduce _ _ _ _ _ C).
  rewrite <- (seq_length (g_nops (tg_graph g)) 0).
  apply NoDup_incl_length; [eapply chain_nodup; eauto|].
  intros o Ho. destruct (chain_producers _ _ _ _ C o Ho) as [u <-].
  apply in_seq. specialize (B u). lia.
Qed.

Lemma wf_reduce_all g : wf_graph g -> forall ts, exists ts',
  Forall2 (sees g) ts ts' /\ mapM (reduce_identity_ops g) ts = Ok ts'.
Proof.
  intros W ts. induction ts as [|t ts (ts' & F & E)].
  - exists []. split; [constructor|reflexivity].
  - destruct (proj2 W t) as [t' S]. exists (t' :: ts'). split; [constructor; assumption|].
    simpl. rewrite (wf_reduce g W t t' S). simpl. simpl in E. rewrite E. reflexivity.
Qed.

Lemma Forall2_sees_det g ts a b : Forall2 (sees g) ts a -> Forall2 (sees g) ts b -> a = b.
Proof.
  intros H. revert b. induction H; intros b K; inversion K; subst; [reflexivity|].
  f_equal; [eapply sees_det; eauto|auto].
Qed.

(** What the expansion of a node is. *)
Lemma expand_inputs_ok g x : wf_graph g ->
  (exists ds, expand_inputs g (DNode x) = Ok (DList ds) /\
     (forall ds', inputs_of g (DNode x) ds' <-> ds' = ds) /\ exists xs, ds = map DNode xs) \/
  (expand_inputs g (DNode x) = Ok py_none /\ forall ds, ~ inputs_of g (DNode x) ds).
Proof.
  intros W. destruct x as [t|o|y].
  - simpl. destruct (negb (is_leaf g (DNode (Tn t)))) eqn:E.
    + left. apply negb_true_iff in E. destruct (proj2 W t) as [t' S].
      rewrite (wf_reduce g W t t' S). simpl. eexists. split; [reflexivity|]. split.
      * intros ds'. split; intros H.
        -- inversion H as [|? ? L S']; subst. rewrite (sees_det _ _ _ _ S S'). reflexivity.
        -- subst. exact (in_tensor g t t' E S).
      * exists [Opn (producer g t')]. reflexivity.
    + right. apply negb_false_iff in E. split; [reflexivity|]. intros ds H. inversion H; congruence.
  - left. destruct (wf_reduce_all g W (op_inputs g o)) as (ts & F & E).
    simpl. simpl in E. rewrite E. simpl. eexists. split; [reflexivity|]. split.
    + intros ds'. split; intros H.
      * inversion H as [? ts' F'|]; subst. rewrite (Forall2_sees_det _ _ _ _ F F'). reflexivity.
      * subst. exact (in_op g o ts F).
    + exists (map Tn ts). rewrite map_map. reflexivity.
  - right. split; [reflexivity|]. intros ds H. inversion H.
Qed.

Lemma expand_outputs_ok g x :
  (exists ds, expand_outputs g (DNode x) = DList ds /\
     (forall ds', outputs_of g (DNode x) ds' <-> ds' = ds) /\ exists xs, ds = map DNode xs) \/
  (expand_outputs g (DNode x) = py_none /\ forall ds, ~ outputs_of g (DNode x) ds).
Proof.
  destruct x as [t|o|y].
  - left. eexists. split; [reflexivity|]. split.
    + intros ds'. split; intros H; [inversion H; reflexivity|subst; constructor].
    + exists (map Opn (consumers (tg_graph g) t)). rewrite map_map. reflexivity.
  - left. eexists. split; [reflexivity|]. split.
    + intros ds'. split; intros H; [inversion H; reflexivity|subst; constructor].
    + exists (map Tn (op_outputs g o)). rewrite map_map. reflexivity.
  - right. split; [reflexivity|]. intros ds H. inversion H.
Qed.

(* ------------------------------------------------------------------------ *)
(** * The solutions in the order of the search *)

Notation sol := (bindings * list node)%type.
Definition solver := datum -> bindings -> list node -> list sol.

Fixpoint solve_seq (fs : list solver) (data : list datum) (b : bindings) (c : list node) : list sol :=
  match fs, data with
  | [], [] => [(b, c)]
  | f :: fs', x :: data' => flat_map (fun bc => solve_seq fs' data' (fst bc) (snd bc)) (f x b c)
  | _, _ => []
  end.
Definition solve_list (fs : list solver) : solver := fun d b c =>
  match d with DList l => solve_seq fs l b c | DNode _ => [] end.

Fixpoint solve (g : tgraph) (P : pattern) : solver := fun d b c =>
  match P with
  | Elem n rs =>
      match d with
      | DList _ => []
      | DNode x =>
          if forallb (fun r => r d) rs then
            match naming n with
            | None => [(b, set_add x c)]
            | Some n =>
                match lookup b n with
                | Some y => if node_eqb y x then [(b, set_add x c)] else []
                | None => [(b ++ [(n, x)], set_add x c)]
                end
            end
          else []
      end
  | Choice Ps => concat (map (fun P => solve g P d b c) Ps)
  | Lst Ps => solve_list (map (solve g) Ps) d b c
  | Internal P i o =>
      match expand_inputs g d with
      | Ok ins =>
          solve_list [solve g P;
                      match i with None => fun _ b c => [(b, c)] | Some Ps => solve_list (map (solve g) Ps) end;
                      match o with None => fun _ b c => [(b, c)] | Some Ps => solve_list (map (solve g) Ps) end]
            (DList [d; ins; expand_outputs g d]) b c
      | Raise _ => []
      end
  | Neg P => match solve g P d b [] with [] => [(b, c)] | _ => [] end
  | Any => match d with
           | DNode x => [(b, set_add x c)]
           | DList l => match atoms l with Some xs => [(b, set_union c xs)] | None => [] end
           end
  | AnyNoConsume => [(b, c)]
  end.

(** Trying the solutions one after the other. *)
Definition norm (r : res value * list value) : res value * list value :=
  match r with
  | (Ok v, s) => (Ok (if truthy v then v else VFalse), s)
  | r => r
  end.
Fixpoint try_all (l : list sol) (k : continuation) : action := fun s =>
  match l with
  | [] => (Ok VFalse, s)
  | (b, c) :: l' =>
      match k b c s with
      | (Ok v, s') => if truthy v then (Ok v, s') else try_all l' k s'
      | (Raise e, s') => (Raise e, s')
      end
  end.

Lemma norm_try l k s : norm (try_all l k s) = try_all l k s.
Proof.
  revert s. induction l as [|[b c] l IH]; intros s; simpl; [reflexivity|].
  destruct (k b c s) as [[v|e] s'] eqn:E; [|reflexivity].
  destruct (truthy v) eqn:T; simpl; [rewrite T; reflexivity|apply IH].
Qed.
Lemma try_ext l k k' s : (forall b c s, norm (k b c s) = norm (k' b c s)) -> try_all l k s = try_all l k' s.
Proof.
  intros H. revert s. induction l as [|[b c] l IH]; intros s; simpl; [reflexivity|].
  pose proof (H b c s) as Q. destruct (k b c s) as [[v|e] s1], (k' b c s) as [[v'|e'] s2]; simpl in Q;
    [|discriminate|discriminate|congruence].
  injection Q as Qv ->. destruct (truthy v) eqn:T, (truthy v') eqn:T'.
  - congruence.
  - subst v. discriminate T.
  - subst v'. discriminate T'.
  - apply IH.
Qed.
Lemma try_app l m k s : try_all (l ++ m) k s =
  match try_all l k s with
  | (Ok v, s') => if truthy v then (Ok v, s') else try_all m k s'
  | r => r
  end.
Proof.
  revert s. induction l as [|[b c] l IH]; intros s; simpl; [reflexivity|].
  destruct (k b c s) as [[v|e] s']; [|reflexivity]. destruct (truthy v) eqn:T; [rewrite T; reflexivity|apply IH].
Qed.
Lemma try_flat l f k s : try_all (flat_map f l) k s = try_all l (fun b c => try_all (f (b, c)) k) s.
Proof.
  revert s. induction l as [|[b c] l IH]; intros s; simpl; [reflexivity|].
  rewrite try_app. destruct (try_all (f (b, c)) k s) as [[v|e] s']; [|reflexivity].
  destruct (truthy v); [reflexivity|apply IH].
Qed.
Lemma try_one b c k s : try_all [(b, c)] k s = norm (k b c s).
Proof. simpl. destruct (k b c s) as [[v|e] s']; simpl; [|reflexivity]. destruct (truthy v); reflexivity. Qed.

(** A combinator that tries the solutions of a solver. *)
Definition tries (m : combinator) (f : solver) (d : datum) : Prop :=
  forall b c k s, norm (m d b c k s) = try_all (f d b c) k s.

Lemma tries_list ms fs data b c k s :
  length ms = length fs ->
  (forall mf d, In mf (combine ms fs) -> In d data -> tries (fst mf) (snd mf) d) \/
  Forall2 (fun mf d => tries (fst mf) (snd mf) d) (combine ms fs) data ->
  norm (list_match data ms b c k s) = try_all (solve_seq fs data b c) k s.
Proof.
  intros L H. revert fs data b c k s L H.
  induction ms as [|m ms IH]; intros [|f fs] data b c k s L H; try discriminate L.
  - destruct data; simpl; [|reflexivity]. destruct (k b c s) as [[v|e] s']; simpl; [|reflexivity].
    destruct (truthy v); reflexivity.
  - destruct data as [|x data]; [reflexivity|]. simpl in *.
    assert (T : tries m f x /\
      ((forall mf d, In mf (combine ms fs) -> In d data -> tries (fst mf) (snd mf) d) \/
       Forall2 (fun mf d => tries (fst mf) (snd mf) d) (combine ms fs) data)).
    { destruct H as [H|H].
      - split; [exact (H (m, f) x (or_introl eq_refl) (or_introl eq_refl))|]. left. intros. apply H; auto.
      - inversion H; subst. split; [assumption|]. right. assumption. }
    destruct T as [T1 T2]. rewrite (T1 b c _ s), try_flat. apply try_ext. intros b' c' s'.
    rewrite (IH fs data b' c' k s' ltac:(lia) T2), norm_try. reflexivity.
Qed.

(** On which data a pattern is matched without a TypeError. *)
Definition nodes (l : list datum) : Prop := Forall (fun d => exists x, d = DNode x) l.
Definition sorted (P : pattern) (d : datum) : Prop :=
  match d with
  | DNode _ => True
  | DList l => nodes l /\ match P with Lst _ | AnyNoConsume => True | _ => False end
  end.

Lemma naming_match {A} n (k0 : A) (k1 : string -> A) :
  match n with None | Some EmptyString => k0 | Some n => k1 n end
  = match naming n with None => k0 | Some n => k1 n end.
Proof. destruct n as [[|a s]|]; reflexivity. Qed.

Definition compiled (g : tgraph) (q : pat) (P : pattern) : Prop :=
  is_pattern (expand_thunks q) = true /\
  exists m, make_combinators g (expand_thunks q) = Ok m /\ forall d, sorted P d -> tries m (solve g P) d.

Lemma compiled_all g qs Ps : Forall2 (compiled g) qs Ps ->
  exists ms, mapM (make_combinators g) (map expand_thunks qs) = Ok ms /\ length ms = length (map (solve g) Ps) /\
    forall data b c k s, nodes data ->
      norm (list_match data ms b c k s) = try_all (solve_seq (map (solve g) Ps) data b c) k s /\
      forall d, sorted (Choice []) d ->
        norm (match_choice ms d b c k s) = try_all (concat (map (fun P => solve g P d b c) Ps)) k s.
Proof.
  intros H.
  assert (K : exists ms, mapM (make_combinators g) (map expand_thunks qs) = Ok ms /\
     Forall2 (fun m P => forall d, sorted P d -> tries m (solve g P) d) ms Ps).
  { induction H as [|q P qs Ps (_ & m & E & T) H (ms & Em & F)].
    - exists []. split; [reflexivity|constructor].
    - exists (m :: ms). split; [simpl; rewrite E; simpl; simpl in Em; rewrite Em; reflexivity|].
      constructor; assumption. }
  destruct K as (ms & E & F). exists ms. split; [exact E|]. clear E H.
  assert (L : length ms = length (map (solve g) Ps)).
  { rewrite map_length. induction F; simpl; congruence. }
  split; [exact L|]. intros data b c k s N. split.
  - apply tries_list; [exact L|].
    left. clear L. induction F as [|m P ms Ps T F IH]; simpl; [intros ? ? []|].
      intros mf d [<-|Hi] Hd.
      * unfold nodes in N. rewrite Forall_forall in N. destruct (N d Hd) as [x ->]. apply T. exact I.
      * apply IH; assumption.
  - intros d Sd. assert (exists x, d = DNode x) as [x ->].
    { destruct d as [x|l]; [eauto|]. simpl in Sd. tauto. }
    clear L. revert s. induction F as [|m P ms Ps T F IH]; intros s; simpl; [reflexivity|].
    rewrite try_app, <- (T (DNode x) I b c k s).
    destruct (m (DNode x) b c k s) as [[v|e] s']; simpl; [|reflexivity].
    destruct (truthy v) eqn:Tv; simpl; rewrite ?Tv; [reflexivity|]. apply IH.
Qed.

Lemma nodes_map xs : nodes (map DNode xs).
Proof. induction xs; constructor; eauto. Qed.

Lemma mapM_restr rs : mapM element_restriction (map expand_thunks (map PPred rs)) = Ok rs.
Proof. induction rs as [|r rs IH]; simpl in *; [reflexivity|]. rewrite IH. reflexivity. Qed.

Lemma element_name_pname n : element_name (expand_thunks (pname n)) = Ok n.
Proof. destruct n; reflexivity. Qed.

Lemma atoms_map xs : atoms (map DNode xs) = Some xs.
Proof. induction xs as [|x xs IH]; simpl; [reflexivity|rewrite IH; reflexivity]. Qed.

(** Matching an internal node. *)
Lemma tries_internal g P i o m mi mo d : wf_graph g -> sorted (Internal P i o) d ->
  (forall d, sorted P d -> tries m (solve g P) d) ->
  (forall d, sorted (match i with None => AnyNoConsume | Some Ps => Lst Ps end) d ->
     tries mi (match i with None => fun _ b c => [(b, c)] | Some Ps => solve_list (map (solve g) Ps) end) d) ->
  (forall d, sorted (match o with None => AnyNoConsume | Some Ps => Lst Ps end) d ->
     tries mo (match o with None => fun _ b c => [(b, c)] | Some Ps => solve_list (map (solve g) Ps) end) d) ->
  tries (match_internal g [m; mi; mo]) (solve g (Internal P i o)) d.
Proof.
  intros W Sd Hm Hi Ho. assert (exists x, d = DNode x) as [x ->].
  { destruct d as [x|l]; [eauto|]. simpl in Sd. tauto. }
  intros b c k s. unfold match_internal. cbn [solve].
  assert (E : exists ins, expand_inputs g (DNode x) = Ok ins /\
     forall P, match P with Lst _ | AnyNoConsume => sorted P ins | _ => True end).
  { destruct (expand_inputs_ok g x W) as [(ds & E & _ & xs & ->)|[E _]]; rewrite E; eexists; (split; [reflexivity|]).
    - intros [| | | | | |]; try exact I; split; try exact I; apply nodes_map.
    - intros [| | | | | |]; exact I. }
  destruct E as (ins & E & Hins). rewrite E.
  assert (Hout : forall P, match P with Lst _ | AnyNoConsume => sorted P (expand_outputs g (DNode x)) | _ => True end).
  { destruct (expand_outputs_ok g x) as [(ds & Eo & _ & xs & ->)|[Eo _]]; rewrite Eo.
    - intros [| | | | | |]; try exact I; split; try exact I; apply nodes_map.
    - intros [| | | | | |]; exact I. }
  unfold match_list, solve_list at 1. apply tries_list; [reflexivity|].
  right. repeat constructor; simpl.
  - apply Hm. exact I.
  - apply Hi. destruct i; [apply (Hins (Lst l))|apply (Hins AnyNoConsume)].
  - apply Ho. destruct o; [apply (Hout (Lst l))|apply (Hout AnyNoConsume)].
Qed.

Lemma list_as_sorted g Ps d ms :
  (forall data b c k s, nodes data ->
     norm (list_match data ms b c k s) = try_all (solve_seq (map (solve g) Ps) data b c) k s) ->
  sorted (Lst Ps) d -> tries (match_list ms) (solve_list (map (solve g) Ps)) d.
Proof. intros H Sd b c k s. destruct d as [x|l]; simpl; [reflexivity|]. apply H. apply Sd. Qed.

Lemma tries_noconsume d : tries match_any_noconsume (fun _ b c => [(b, c)]) d.
Proof. intros b c k s. rewrite try_one. reflexivity. Qed.

Section DInd.
Variable Q : pat -> pattern -> Prop.
Hypothesis D1 : forall q P, denotes q P -> Q q P -> Q (PThunk q) P.
Hypothesis D2 : forall n rs, Q (PSeq (PStr "?" :: pname n :: map PPred rs)) (Elem n rs).
Hypothesis D3 : forall qs Ps, Forall2 Q qs Ps -> Q (PSeq (PStr "?:choice" :: qs)) (Choice Ps).
Hypothesis D4 : forall qs Ps, Forall2 Q qs Ps -> Q (PSeq (PStr "List" :: qs)) (Lst Ps).
Hypothesis D5 : forall q P qs Ps, Q q P -> Forall2 Q qs Ps ->
  Q (PSeq [q; PSeq (PStr "In" :: qs)]) (Internal P (Some Ps) None).
Hypothesis D6 : forall q P qs Ps, Q q P -> Forall2 Q qs Ps ->
  Q (PSeq [q; PSeq (PStr "Out" :: qs)]) (Internal P None (Some Ps)).
Hypothesis D7 : forall q P qi Pi qo Po, Q q P -> Forall2 Q qi Pi -> Forall2 Q qo Po ->
  Q (PSeq [q; PSeq (PStr "In" :: qi); PSeq (PStr "Out" :: qo)]) (Internal P (Some Pi) (Some Po)).
Hypothesis D8 : forall q P, Q q P -> Q (PSeq [PStr "?:not"; q]) (Neg P).
Hypothesis D9 : Q (PSeq [PStr "?:any"]) Any.
Hypothesis D10 : Q (PSeq [PStr "?:any_noconsume"]) AnyNoConsume.
Fixpoint denotes_rec' q P (H : denotes q P) {struct H} : Q q P :=
  let all := fix all qs Ps (F : Forall2 denotes qs Ps) : Forall2 Q qs Ps :=
    match F with
    | Forall2_nil _ => Forall2_nil _
    | Forall2_cons x y h F' => Forall2_cons x y (denotes_rec' x y h) (all _ _ F')
    end in
  match H with
  | dn_thunk q P h => D1 q P h (denotes_rec' q P h)
  | dn_elem n rs => D2 n rs
  | dn_choice qs Ps F => D3 qs Ps (all _ _ F)
  | dn_list qs Ps F => D4 qs Ps (all _ _ F)
  | dn_in q P qs Ps h F => D5 q P qs Ps (denotes_rec' q P h) (all _ _ F)
  | dn_out q P qs Ps h F => D6 q P qs Ps (denotes_rec' q P h) (all _ _ F)
  | dn_in_out q P qi Pi qo Po h F G => D7 q P qi Pi qo Po (denotes_rec' q P h) (all _ _ F) (all _ _ G)
  | dn_not q P h => D8 q P (denotes_rec' q P h)
  | dn_any => D9
  | dn_any_noconsume => D10
  end.
End DInd.

Lemma pattern_head q : is_pattern q = true -> exists h t, q = PSeq (h :: t).
Proof. destruct q as [| | | | |[|h t]]; try discriminate. eauto. Qed.

Lemma compile g q P : wf_graph g -> denotes q P -> compiled g q P.
Proof.
  intros W H. induction H as [q P _ IH|n rs|qs Ps H|qs Ps H|q P qs Ps (Iq & m & Em & Tm) H
      |q P qs Ps (Iq & m & Em & Tm) H|q P qi Pi qo Po (Iq & m & Em & Tm) Hi Ho|q P (Iq & m & Em & Tm)| |]
    using denotes_rec'.
  - exact IH.
  - split; [reflexivity|]. exists (match_element n rs). split.
    + cbn [expand_thunks map]. cbn [make_combinators head_is String.eqb Ascii.eqb Bool.eqb].
      rewrite element_name_pname. cbn [bind]. rewrite mapM_restr. reflexivity.
    + intros d Sd b c k s. destruct d as [x|l]; [|simpl in Sd; tauto].
      unfold match_element. cbn [solve]. destruct (forallb (fun r => r (DNode x)) rs); [|reflexivity].
      rewrite naming_match. destruct (naming n) as [n'|]; [|rewrite try_one; reflexivity].
      destruct (lookup b n') as [y|]; [|rewrite try_one; reflexivity].
      destruct (node_eqb y x); [rewrite try_one; reflexivity|reflexivity].
  - destruct (compiled_all g qs Ps H) as (ms & E & L & T). split; [reflexivity|].
    exists (match_choice ms). split.
    + cbn [expand_thunks map]. cbn [make_combinators head_is String.eqb Ascii.eqb Bool.eqb].
      rewrite E. reflexivity.
    + intros d Sd b c k s. cbn [solve]. apply (T [] b c k s (Forall_nil _)). destruct d; [exact I|]. simpl in Sd; tauto.
  - destruct (compiled_all g qs Ps H) as (ms & E & L & T). split; [reflexivity|].
    exists (match_list ms). split.
    + cbn [expand_thunks map]. cbn [make_combinators head_is String.eqb Ascii.eqb Bool.eqb].
      rewrite E. reflexivity.
    + intros d Sd. apply list_as_sorted; [|exact Sd]. intros. apply T. assumption.
  - destruct (compiled_all g qs Ps H) as (ms & E & L & T). split; [reflexivity|].
    destruct (pattern_head _ Iq) as (h & t & Eq).
    exists (match_internal g [m; match_list ms; match_any_noconsume]). split.
    + cbn [expand_thunks map]. cbn [make_combinators]. rewrite Eq in Em |- *.
      cbn [head_is is_internal_node_pattern forallb is_pattern map tag andb String.eqb Ascii.eqb Bool.eqb orb].
      rewrite Em. cbn [bind]. rewrite E. reflexivity.
    + intros d Sd. apply tries_internal; auto.
      * intros d' Sd'. apply list_as_sorted; [|exact Sd']. intros. apply T. assumption.
      * intros d' _. apply tries_noconsume.
  - destruct (compiled_all g qs Ps H) as (ms & E & L & T). split; [reflexivity|].
    destruct (pattern_head _ Iq) as (h & t & Eq).
    exists (match_internal g [m; match_any_noconsume; match_list ms]). split.
    + cbn [expand_thunks map]. cbn [make_combinators]. rewrite Eq in Em |- *.
      cbn [head_is is_internal_node_pattern forallb is_pattern map tag andb String.eqb Ascii.eqb Bool.eqb orb].
      rewrite Em. cbn [bind]. rewrite E. reflexivity.
    + intros d Sd. apply tries_internal; auto.
      * intros d' _. apply tries_noconsume.
      * intros d' Sd'. apply list_as_sorted; [|exact Sd']. intros. apply T. assumption.
  - destruct (compiled_all g qi Pi Hi) as (mi & Ei & Li & Ti).
    destruct (compiled_all g qo Po Ho) as (mo & Eo & Lo & To). split; [reflexivity|].
    destruct (pattern_head _ Iq) as (h & t & Eq).
    exists (match_internal g [m; match_list mi; match_list mo]). split.
    + cbn [expand_thunks map]. cbn [make_combinators]. rewrite Eq in Em |- *.
      cbn [head_is is_internal_node_pattern forallb is_pattern map tag andb String.eqb Ascii.eqb Bool.eqb orb].
      rewrite Em. cbn [bind]. rewrite Ei, Eo. reflexivity.
    + intros d Sd. apply tries_internal; auto.
      * intros d' Sd'. apply list_as_sorted; [|exact Sd']. intros. apply Ti. assumption.
      * intros d' Sd'. apply list_as_sorted; [|exact Sd']. intros. apply To. assumption.
  - split; [reflexivity|]. exists (match_not m). split.
    + cbn [expand_thunks map]. cbn [make_combinators head_is String.eqb Ascii.eqb Bool.eqb].
      rewrite Em. reflexivity.
    + intros d Sd b c k s. assert (Sp : sorted P d) by (destruct d; simpl in *; [exact I|tauto]).
      unfold match_not. cbn [solve].
      pose proof (Tm d Sp b [] (fun _ _ => ret VTrue) s) as Q.
      destruct (solve g P d b []) as [|[b1 c1] l].
      * simpl in Q. destruct (m d b [] (fun _ _ => ret VTrue) s) as [[v|e] s']; simpl in Q; [|discriminate].
        injection Q as Qv ->. destruct (truthy v) eqn:Tv; [subst v; discriminate Tv|]. rewrite try_one. reflexivity.
      * simpl in Q. destruct (m d b [] (fun _ _ => ret VTrue) s) as [[v|e] s']; simpl in Q; [|discriminate].
        injection Q as Qv ->. destruct (truthy v) eqn:Tv; [reflexivity|discriminate Qv].
  - split; [reflexivity|]. exists match_any. split; [reflexivity|].
    intros d Sd b c k s. destruct d as [x|l]; [|simpl in Sd; tauto]. simpl solve. rewrite try_one. reflexivity.
  - split; [reflexivity|]. exists match_any_noconsume. split; [reflexivity|].
    intros d Sd. apply tries_noconsume.
Qed.

(* ------------------------------------------------------------------------ *)
(** * Solutions and the meaning of patterns *)

Lemma set_union_app c u v : set_union (set_union c u) v = set_union c (u ++ v).
Proof. unfold set_union. rewrite fold_left_app. reflexivity. Qed.

Lemma node_eqb_eq x y : node_eqb x y = true <-> x = y.
Proof. destruct x, y; simpl; rewrite ?Nat.eqb_eq; split; congruence. Qed.

Lemma in_members_iff x c : in_members x c = true <-> In x c.
Proof.
  unfold in_members. rewrite existsb_exists. split.
  - intros (y & H & E). apply node_eqb_eq in E. congruence.
  - intros H. exists x. split; [exact H|]. apply node_eqb_eq. reflexivity.
Qed.
Lemma set_add_in x y c : In y (set_add x c) <-> In y c \/ y = x.
Proof.
  unfold set_add. destruct (in_members x c) eqn:E.
  - apply in_members_iff in E. split; [auto|]. intros [H| ->]; assumption.
  - rewrite in_app_iff. simpl. intuition congruence.
Qed.
Lemma set_union_in c u y : In y (set_union c u) <-> In y c \/ In y u.
Proof.
  unfold set_union. revert c. induction u as [|x u IH]; intros c; simpl; [tauto|].
  rewrite IH, set_add_in. intuition congruence.
Qed.
Lemma set_union_nil u : same_nodes (set_union [] u) u.
Proof. intros y. rewrite set_union_in. simpl. tauto. Qed.

Definition gives (f : solver) (d : datum) (R : bindings -> bindings -> datum -> list node -> Prop) : Prop :=
  forall b c b' c', In (b', c') (f d b c) <-> exists used, R b b' d used /\ c' = set_union c used.

Lemma gives_seq {A} (S : A -> bindings -> bindings -> datum -> list node -> Prop) (fs : A -> solver) Ps :
  forall data, (forall P d, In P Ps -> In d data -> gives (fs P) d (S P)) ->
  forall b c b' c', In (b', c') (solve_seq (map fs Ps) data b c) <->
    exists used, choose S Ps b b' data used /\ c' = set_union c used.
Proof.
  induction Ps as [|P Ps IH]; intros [|d data] H b c b' c'; simpl.
  - split.
    + intros [E|[]]. injection E as <- <-. exists []. auto.
    + intros (u & [-> ->] & ->). left. reflexivity.
  - split; [tauto|]. intros (u & [] & _).
  - split; [tauto|]. intros (u & [] & _).
  - assert (IHd := IH data (fun P' d' hp hd => H P' d' (or_intror hp) (or_intror hd))).
    rewrite in_flat_map. split.
    + intros ([b1 c1] & H1 & H2). simpl in H2.
      apply (H P d (or_introl eq_refl) (or_introl eq_refl)) in H1 as (u & Hu & ->).
      apply IHd in H2 as (v & Hv & ->).
      exists (u ++ v). rewrite set_union_app. split; [|reflexivity]. exists b1, u, v. auto.
    + intros (w & (b1 & u & v & Hu & Hv & ->) & ->). exists (b1, set_union c u). split.
      * apply (H P d (or_introl eq_refl) (or_introl eq_refl)). eauto.
      * simpl. apply IHd. exists v. rewrite set_union_app. auto.
Qed.

Lemma sorted_in P data d : nodes data -> In d data -> sorted P d.
Proof.
  unfold nodes. rewrite Forall_forall. intros N H. destruct (N d H) as [x ->]. exact I.
Qed.

Lemma gives_constrained g (N : list datum -> Prop) ex ps d :
  ((exists ds, ex = DList ds /\ (forall ds', N ds' <-> ds' = ds) /\ exists xs, ds = map DNode xs) \/
   (ex = py_none /\ forall ds, ~ N ds)) ->
  match ps with None => True
  | Some Ps => Forall (fun P => forall d, sorted P d -> gives (solve g P) d (binds g P)) Ps end ->
  gives (fun _ => match ps with None => fun b c => [(b, c)]
         | Some Ps => solve_list (map (solve g) Ps) ex end) d
    (fun b b' _ used => then_constrained N (binds g) ps b b' used).
Proof.
  intros HN HP. destruct ps as [Ps|]; simpl.
  - intros b c b' c'. destruct HN as [(ds & -> & HN & xs & Hx)|[-> HN]]; simpl.
    + rewrite (gives_seq (fun P => binds g P) (solve g)).
      * split.
        -- intros (u & Hu & ->). exists u. split; [|reflexivity]. exists ds. split; [apply HN; reflexivity|exact Hu].
        -- intros (u & (ds' & Hd & Hu) & ->). apply HN in Hd as ->. eauto.
      * intros P x HPin Hx'. rewrite Forall_forall in HP. apply HP; [exact HPin|].
        eapply sorted_in; [|exact Hx']. subst ds. apply nodes_map.
    + split; [tauto|]. intros (u & (ds & Hd & _) & _). exact (HN ds Hd).
  - intros b c b' c'. simpl. split.
    + intros [E|[]]. injection E as <- <-. exists []. auto.
    + intros (u & [-> ->] & ->). left. reflexivity.
Qed.

Lemma solve_binds g P : wf_graph g -> forall d, sorted P d -> gives (solve g P) d (binds g P).
Proof.
  intros W. induction P as [n rs|Ps H|Ps H|P i o HP Hi Ho|P HP| |] using pattern_rec'; intros d Sd b c b' c'.
  - destruct d as [x|l]; [|simpl in Sd; tauto]. simpl.
    destruct (forallb (fun r => r (DNode x)) rs) eqn:E.
    + assert (F : Forall (fun r => r (DNode x) = true) rs).
      { rewrite forallb_forall in E. apply Forall_forall. exact E. }
      destruct (naming n) as [n'|].
      * destruct (lookup b n') as [y|] eqn:L.
        -- destruct (node_eqb y x) eqn:Q.
           ++ apply node_eqb_eq in Q as ->. split.
              ** intros [R|[]]. injection R as <- <-. exists [x]. split; [|reflexivity]. exists x. auto 6.
              ** intros (u & (z & Ez & -> & _ & [[Lz ->]|[Lz _]]) & ->); [|congruence].
                 injection Ez as ->. left. reflexivity.
           ++ split; [intros []|]. intros (u & (z & Ez & -> & _ & [[Lz _]|[Lz _]]) & _); [|congruence].
              injection Ez as ->. assert (y = z) as -> by congruence.
              rewrite (proj2 (node_eqb_eq z z) eq_refl) in Q. discriminate.
        -- split.
           ++ intros [R|[]]. injection R as <- <-. exists [x]. split; [|reflexivity]. exists x. auto 6.
           ++ intros (u & (z & Ez & -> & _ & [[Lz _]|[_ ->]]) & ->); [congruence|].
              injection Ez as ->. left. reflexivity.
      * split.
        -- intros [R|[]]. injection R as <- <-. exists [x]. split; [|reflexivity]. exists x. auto 6.
        -- intros (u & (z & Ez & -> & _ & ->) & ->). injection Ez as ->. left. reflexivity.
    + split; [intros []|]. intros (u & (z & Ez & _ & F & _) & _).
      assert (forallb (fun r => r (DNode x)) rs = true) by (apply forallb_forall; rewrite Forall_forall in F; exact F).
      congruence.
  - simpl. assert (Sx : forall P, sorted P d) by (destruct d; simpl in *; [auto|tauto]). clear Sd.
    induction H as [|P Ps HP H IH]; simpl.
    + split; [tauto|]. intros (u & [] & _).
    + rewrite in_app_iff, (HP d (Sx P) b c b' c'), IH. split.
      * intros [(u & Hu & E)|(u & Hu & E)]; eauto.
      * intros (u & [Hu|Hu] & E); eauto.
  - cbn [solve]. destruct d as [x|l]; simpl.
    + split; [tauto|]. intros (u & (ds & E & _) & _). discriminate.
    + rewrite (gives_seq (fun P => binds g P) (solve g)).
      * split.
        -- intros (u & Hu & E). exists u. split; [|exact E]. exists l. auto.
        -- intros (u & (ds & E & Hu) & Ec). injection E as <-. eauto.
      * intros P x HPin Hx. rewrite Forall_forall in H. apply H; [exact HPin|].
        eapply sorted_in; [|exact Hx]. apply Sd.
  - destruct d as [x|l]; [|simpl in Sd; tauto]. cbn [solve].
    pose proof (expand_inputs_ok g x W) as EI. pose proof (expand_outputs_ok g x) as EO.
    assert (exists ins, expand_inputs g (DNode x) = Ok ins /\
      ((exists ds, ins = DList ds /\ (forall ds', inputs_of g (DNode x) ds' <-> ds' = ds) /\ exists xs, ds = map DNode xs) \/
       (ins = py_none /\ forall ds, ~ inputs_of g (DNode x) ds))) as (ins & E & HI).
    { destruct EI as [(ds & E & K)|[E K]]; eexists; (split; [exact E|]); [left; eauto|right; auto]. }
    rewrite E.
    pose proof (gives_constrained g (inputs_of g (DNode x)) ins i (DNode x) HI Hi) as GI.
    pose proof (gives_constrained g (outputs_of g (DNode x)) _ o (DNode x) EO Ho) as GO.
    specialize (HP (DNode x) I).
    unfold solve_list at 1. cbn [solve_seq]. rewrite in_flat_map. split.
    + intros ([b1 c1] & H1 & H2). apply HP in H1 as (u & Hu & ->). cbn [fst snd] in H2.
      apply in_flat_map in H2 as ([b2 c2] & H2 & H3). cbn [fst snd] in H3.
      apply in_flat_map in H3 as ([b3 c3] & H3 & H4). cbn [fst snd] in H4.
      destruct H4 as [H4|[]]. injection H4 as -> ->.
      assert (exists v, then_constrained (inputs_of g (DNode x)) (binds g) i b1 b2 v /\ c2 = set_union (set_union c u) v)
        as (v & Hv & ->).
      { apply (GI b1 (set_union c u) b2 c2). destruct i; exact H2. }
      assert (exists w, then_constrained (outputs_of g (DNode x)) (binds g) o b2 b' w /\ c' = set_union (set_union (set_union c u) v) w)
        as (w & Hw & ->).
      { apply (GO b2 (set_union (set_union c u) v) b' c'). destruct o; exact H3. }
      exists (u ++ v ++ w). rewrite !set_union_app, <- ?app_assoc. split; [|reflexivity].
      exists b1, b2, u, v, w. auto.
    + intros (used & (b1 & b2 & u & v & w & -> & Hu & Hv & Hw) & ->).
      exists (b1, set_union c u). split; [apply HP; eauto|]. cbn [fst snd]. rewrite in_flat_map.
      exists (b2, set_union (set_union c u) v). split.
      { pose proof (proj2 (GI b1 (set_union c u) b2 (set_union (set_union c u) v)) (ex_intro _ v (conj Hv eq_refl))) as K.
        destruct i; exact K. }
      cbn [fst snd]. rewrite in_flat_map. exists (b', set_union (set_union (set_union c u) v) w). split.
      { pose proof (proj2 (GO b2 _ b' (set_union (set_union (set_union c u) v) w)) (ex_intro _ w (conj Hw eq_refl))) as K.
        destruct o; exact K. }
      cbn [fst snd]. left. rewrite !set_union_app, <- ?app_assoc. reflexivity.
  - cbn [solve]. assert (Sp : sorted P d) by (destruct d; simpl in *; [exact I|tauto]).
    pose proof (fun b' c' => HP d Sp b [] b' c') as G. destruct (solve g P d b []) as [|[b1 c1] l] eqn:E.
    + simpl. split.
      * intros [R|[]]. injection R as <- <-. exists []. split; [|reflexivity]. split; [reflexivity|]. split; [reflexivity|].
        intros b1 u Hb. exact (proj2 (G b1 (set_union [] u)) (ex_intro _ u (conj Hb eq_refl))).
      * intros (u & (-> & -> & _) & ->). left. reflexivity.
    + simpl. split; [intros []|]. intros (u & (_ & _ & Hn) & _).
      destruct (proj1 (G b1 c1) (or_introl eq_refl)) as (u1 & Hu1 & _). exact (Hn b1 u1 Hu1).
  - destruct d as [x|l]; [|simpl in Sd; tauto]. simpl. split.
    + intros [R|[]]. injection R as <- <-. exists [x]. auto.
    + intros (u & [-> ->] & ->). left. reflexivity.
  - simpl. split.
    + intros [R|[]]. injection R as <- <-. exists []. auto.
    + intros (u & [-> ->] & ->). left. reflexivity.
Qed.
