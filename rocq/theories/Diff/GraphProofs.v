(** Graphs that grow, and the invariant of the reverse pass. *)
From Coq Require Import List Arith Bool Reals Lra Lia.
From Verif.Base Require Import Py.
From Verif.Curv Require Import Model Spec.
From Verif.Diff Require Import Model Spec.
Import ListNotations.
Open Scope list_scope.
Open Scope R_scope.

(** Sums over the numbers below [n]. *)
Fixpoint total (n : nat) (f : nat -> R) : R :=
  match n with 0%nat => 0 | S n' => total n' f + f n' end.
Lemma total_ext n f g : (forall i, (i < n)%nat -> f i = g i) -> total n f = total n g.
Proof. induction n as [|n IH]; intro H; cbn; [reflexivity|]. rewrite IH by (intros; apply H; lia). rewrite H by lia. reflexivity. Qed.
Lemma total_plus n f g : total n (fun i => f i + g i) = total n f + total n g.
Proof. induction n as [|n IH]; cbn; [lra|]. rewrite IH. lra. Qed.
Lemma total_scal n c f : total n (fun i => c * f i) = c * total n f.
Proof. induction n as [|n IH]; cbn; [lra|]. rewrite IH. lra. Qed.
Lemma total_0 n : total n (fun _ => 0) = 0.
Proof. induction n as [|n IH]; cbn; [reflexivity|]. rewrite IH. lra. Qed.
Lemma total_one n i c : (i < n)%nat -> total n (fun j => if Nat.eqb j i then c else 0) = c.
Proof.
  induction n as [|n IH]; intro H; [lia|]. cbn.
  destruct (Nat.eqb_spec n i) as [->|N].
  - rewrite (total_ext i _ (fun _ => 0)), total_0; [lra|].
    intros j Hj. destruct (Nat.eqb_spec j i); [lia|reflexivity].
  - rewrite IH by lia. lra.
Qed.

Lemma mem_In i l : mem i l = true <-> In i l.
Proof.
  unfold mem. rewrite existsb_exists. split.
  - intros (x & Hx & E). apply Nat.eqb_eq in E. subst. exact Hx.
  - intro H. exists i. split; [exact H|apply Nat.eqb_refl].
Qed.

Section Graphs.
Variable O : ops.
Notation graph := (graph O).

Lemma node_at_ext (h G : graph) i : (i < length G)%nat -> node_at O (h ++ G) i = node_at O G i.
Proof.
  intro H. induction h as [|nd h IH]; [reflexivity|]. cbn.
  destruct (Nat.eqb_spec i (length (h ++ G))) as [E|_]; [rewrite app_length in E; lia|exact IH].
Qed.
Lemma node_at_lt (G : graph) i nd : node_at O G i = Some nd -> (i < length G)%nat.
Proof.
  induction G as [|x G IH]; cbn; [discriminate|].
  destruct (Nat.eqb_spec i (length G)) as [->|_]; [lia|]. intro H. apply IH in H. lia.
Qed.
Lemma node_at_some (G : graph) i : (i < length G)%nat -> exists nd, node_at O G i = Some nd.
Proof.
  induction G as [|x G IH]; cbn; [lia|]. intro H.
  destruct (Nat.eqb_spec i (length G)) as [->|N]; [eexists; reflexivity|]. apply IH. lia.
Qed.
Lemma wf_at (G : graph) i nd : wf O G -> node_at O G i = Some nd ->
  (forall a, In a (args_of O nd) -> (a < i)%nat) /\ (forall p args, nd = Apply p args -> length args = arity O p).
Proof.
  induction G as [|x G IH]; cbn; [discriminate|]. intros (H1 & H2 & H3).
  destruct (Nat.eqb_spec i (length G)) as [->|_]; [|apply IH; exact H3].
  intros [= <-]. split; [exact H1|exact H2].
Qed.

(** Quantities of nodes that later nodes do not change. *)
Definition stable {A} (phi : graph -> nat -> A) : Prop :=
  forall nd G i, (i < length G)%nat -> phi (nd :: G) i = phi G i.
Lemma stable_ext {A} (phi : graph -> nat -> A) h G i : stable phi -> (i < length G)%nat -> phi (h ++ G) i = phi G i.
Proof.
  intros S H. induction h as [|nd h IH]; [reflexivity|]. cbn. rewrite S; [exact IH|].
  rewrite app_length. lia.
Qed.

Lemma moved_stable env stops base e : stable (moved O env stops base e).
Proof.
  intros nd G i H. cbn. destruct (Nat.eqb_spec i (length G)) as [E|_]; [lia|reflexivity].
Qed.
Lemma value_stable env : stable (value O env).
Proof.
  intros nd G i H. cbn. destruct (Nat.eqb_spec i (length G)) as [E|_]; [lia|reflexivity].
Qed.
Lemma moved_top env stops base e nd G :
  moved O env stops base e (nd :: G) (length G)
  = (if mem (length G) stops then base (length G) else real_node O env (moved O env stops base e G) nd) + e (length G).
Proof. cbn. rewrite Nat.eqb_refl. reflexivity. Qed.

(** ** Tangents *)
(** How a node moves when its arguments move by [T], their values being [x]. *)
Definition lin (x : nat -> R) (nd : node O) (T : nat -> R) : R :=
  match nd with
  | Leaf _ | Const _ | Nan => 0
  | Apply p args => rsum (map2 (fun k a => ev O (dp O p k) (map x args) * T a) (seq 0 (length args)) args)
  | Add a b => T a + T b
  | Mul a b => T a * x b + x a * T b
  end.
Fixpoint tan (stops : list nat) (x v : nat -> R) (G : graph) (i : nat) : R :=
  match G with
  | [] => 0
  | nd :: G' =>
      if Nat.eqb i (length G')
      then v i + (if mem i stops then 0 else lin x nd (tan stops x v G'))
      else tan stops x v G' i
  end.
Lemma tan_stable stops x v : stable (tan stops x v).
Proof.
  intros nd G i H. cbn. destruct (Nat.eqb_spec i (length G)) as [E|_]; [lia|reflexivity].
Qed.
Lemma tan_top stops x v nd G :
  tan stops x v (nd :: G) (length G) = v (length G) + (if mem (length G) stops then 0 else lin x nd (tan stops x v G)).
Proof. cbn. rewrite Nat.eqb_refl. reflexivity. Qed.

Lemma map2_cons {A B C} (f : A -> B -> C) a l b m : map2 f (a :: l) (b :: m) = f a b :: map2 f l m.
Proof. reflexivity. Qed.
Lemma rsum_cons a l : rsum (a :: l) = a + rsum l.
Proof. reflexivity. Qed.
Lemma map2_nil_r {A B C} (f : A -> B -> C) l : map2 f l [] = [].
Proof. destruct l; reflexivity. Qed.
Lemma map2_ext {A B C} (f g : A -> B -> C) l m :
  (forall a b, In b m -> f a b = g a b) -> map2 f l m = map2 g l m.
Proof.
  intro H. revert l H. induction m as [|b m IH]; intros [|a l] H; try reflexivity.
  rewrite !map2_cons, H by (left; reflexivity). f_equal. apply IH. intros a' b' Hb. apply H. right. exact Hb.
Qed.
Lemma lin_ext x x' nd T T' :
  (forall a, In a (args_of O nd) -> x a = x' a) -> (forall a, In a (args_of O nd) -> T a = T' a) ->
  lin x nd T = lin x' nd T'.
Proof.
  intros Hx HT. destruct nd as [k|r| |p args|a b|a b]; cbn [args_of lin] in *; try reflexivity.
  - rewrite (map_ext_in x x' args) by exact Hx. f_equal. apply map2_ext. intros k a Ha.
    rewrite HT by exact Ha. reflexivity.
  - rewrite !HT by (cbn; auto). reflexivity.
  - rewrite !HT, !Hx by (cbn; auto). reflexivity.
Qed.
Lemma tan_at stops x v G i nd : wf O G -> node_at O G i = Some nd ->
  tan stops x v G i = v i + (if mem i stops then 0 else lin x nd (tan stops x v G)).
Proof.
  induction G as [|y G IH]; [discriminate|]. intros (H1 & H2 & H3). cbn [node_at].
  destruct (Nat.eqb_spec i (length G)) as [->|N].
  - intros [= ->]. rewrite tan_top. f_equal. destruct (mem _ _); [reflexivity|].
    apply lin_ext; [reflexivity|]. intros a Ha. symmetry. apply tan_stable. apply H1, Ha.
  - intro E. pose proof (node_at_lt _ _ _ E) as Hi. rewrite tan_stable by exact Hi.
    rewrite IH by assumption. f_equal. destruct (mem _ _); [reflexivity|].
    apply lin_ext; [reflexivity|]. intros a Ha. symmetry. apply tan_stable.
    apply (wf_at _ _ _ H3 E) in Ha. lia.
Qed.

(** Tangents are linear in the direction. *)
Lemma lin_comb x nd c T d T' :
  lin x nd (fun i => c * T i + d * T' i) = c * lin x nd T + d * lin x nd T'.
Proof.
  destruct nd as [k|r| |p args|a b|a b]; cbn [lin]; try ring.
  set (f := fun k => ev O (dp O p k) (map x args)).
  change (rsum (map2 (fun k a => f k * (c * T a + d * T' a)) (seq 0 (length args)) args)
          = c * rsum (map2 (fun k a => f k * T a) (seq 0 (length args)) args)
            + d * rsum (map2 (fun k a => f k * T' a) (seq 0 (length args)) args)).
  clearbody f. generalize (seq 0 (length args)) as ks.
  induction args as [|a l IH]; intros [|k ks]; rewrite ?map2_nil_r, ?map2_cons, ?rsum_cons; try (cbn; ring).
  rewrite IH. ring.
Qed.
Lemma tan_comb stops x c v d w G i :
  tan stops x (fun j => c * v j + d * w j) G i = c * tan stops x v G i + d * tan stops x w G i.
Proof.
  induction G as [|nd G IH] in i |- *; [cbn; ring|]. cbn.
  destruct (Nat.eqb i (length G)); [|apply IH].
  destruct (mem i stops); [ring|].
  rewrite (lin_ext x x nd _ (fun j => c * tan stops x v G j + d * tan stops x w G j)), lin_comb;
    [ring|reflexivity|intros; apply IH].
Qed.
Lemma tan_ext stops x v w G i : (forall j, v j = w j) -> tan stops x v G i = tan stops x w G i.
Proof.
  intro H. induction G as [|nd G IH] in i |- *; [reflexivity|]. cbn.
  destruct (Nat.eqb i (length G)); [|apply IH]. rewrite H. destruct (mem i stops); [reflexivity|].
  f_equal. apply lin_ext; [reflexivity|intros; apply IH].
Qed.
Definition delta (x : nat) : nat -> R := fun i => if Nat.eqb i x then 1 else 0.
Lemma tan_along stops x xs cs G i :
  tan stops x (along xs cs) G i = rsum (map2 (fun j c => c * tan stops x (delta j) G i) xs cs).
Proof.
  revert cs. induction xs as [|j xs IH]; intros [|c cs].
  1-3: rewrite (tan_ext _ _ _ (fun k => 0 * 0 + 0 * 0) G i) by (intro k; unfold along; cbn; try rewrite map2_nil_r; cbn; ring);
       rewrite tan_comb; cbn; ring.
  rewrite map2_cons, rsum_cons.
  rewrite <- IH, (tan_ext _ _ _ (fun k => c * delta j k + 1 * along xs cs k)), tan_comb; [ring|].
  intro k. unfold along, delta. rewrite map2_cons, rsum_cons.
  destruct (Nat.eqb k j); ring.
Qed.

(** The values only matter where they are used. *)
Lemma tan_values stops x x' v G i : wf O G -> (forall j, (j < length G)%nat -> x j = x' j) ->
  tan stops x v G i = tan stops x' v G i.
Proof.
  revert i. induction G as [|nd G IH]; intros i W H; [reflexivity|]. destruct W as (H1 & H2 & H3). cbn.
  destruct (Nat.eqb i (length G)).
  - destruct (mem i stops); [reflexivity|]. f_equal. apply lin_ext.
    + intros a Ha. apply H. cbn. apply H1 in Ha. lia.
    + intros a Ha. apply IH; [exact H3|]. intros j Hj. apply H. cbn. lia.
  - apply IH; [exact H3|]. intros j Hj. apply H. cbn. lia.
Qed.

(** ** The reverse pass *)
Section Pass.
(** The graph has [n] nodes to begin with, whose arguments are all below [m]; [x] are values of
    the nodes; [phi] is a quantity that is additive in the nodes the pass adds. *)
Variables (n m : nat) (x : graph -> nat -> R) (phi : graph -> nat -> R) (Gs : graph).
Hypothesis Hmn : (m <= n)%nat.
Hypothesis phi_stable : stable phi.
Hypothesis x_stable : stable x.
Definition coefficient (G : graph) (q : nat) : Prop :=
  (exists h, G = h ++ Gs) /\
  ((q < m)%nat \/
  exists p args, node_at O G q = Some (Apply p args) /\ (n <= q)%nat /\ forall a, In a args -> (a < m)%nat).
Hypothesis phi_add : forall G a b, (n <= length G)%nat -> (a < length G)%nat -> (b < length G)%nat ->
  phi (Add a b :: G) (length G) = phi G a + phi G b.
Hypothesis phi_mul : forall G g q, (n <= length G)%nat -> (g < length G)%nat -> (q < length G)%nat ->
  coefficient G q -> phi (Mul g q :: G) (length G) = phi G g * x G q.
Hypothesis x_apply : forall G p args, (n <= length G)%nat -> (forall a, In a args -> (a < m)%nat) ->
  x (Apply p args :: G) (length G) = ev O p (map (x G) args).

Notation state := (state O).
Definition valid (G0 : graph) (st : state) : Prop :=
  (exists h, fst st = h ++ G0) /\ forall j c, snd st j = Some c -> (c < length (fst st))%nat.
Definition acc (st : state) (j : nat) : R := match snd st j with Some c => phi (fst st) c | None => 0 end.
Definition weight (st : state) (z : nat -> R) : R := total n (fun j => acc st j * z j).

Lemma valid_len G0 st : valid G0 st -> (length G0 <= length (fst st))%nat.
Proof. intros ((h & ->) & _). rewrite app_length. lia. Qed.

(** Emitting a node changes nothing. *)
Lemma emit_valid G0 st nd : valid G0 st -> valid G0 (nd :: fst st, snd st).
Proof.
  intros ((h & E) & V). split; cbn.
  - exists (nd :: h). rewrite E. reflexivity.
  - intros j c H. apply V in H. lia.
Qed.
Lemma emit_acc G0 st nd j : valid G0 st -> acc (nd :: fst st, snd st) j = acc st j.
Proof.
  intros (_ & V). unfold acc. cbn. destruct (snd st j) as [c|] eqn:E; [|reflexivity].
  apply phi_stable, (V _ _ E).
Qed.
Lemma emit_weight G0 st nd z : valid G0 st -> weight (nd :: fst st, snd st) z = weight st z.
Proof. intro V. apply total_ext. intros j _. rewrite (emit_acc G0) by exact V. reflexivity. Qed.

Lemma contribute_ok G0 st a c : valid G0 st -> (c < length (fst st))%nat -> (n <= length G0)%nat ->
  valid G0 (contribute O st a c) /\
  (exists h, fst (contribute O st a c) = h ++ fst st) /\
  (forall j, snd (contribute O st a c) j <> snd st j -> j = a) /\
  ((a < n)%nat -> forall z, weight (contribute O st a c) z = weight st z + phi (fst st) c * z a).
Proof.
  intros V Hc Hn. pose proof (valid_len _ _ V) as Hl. destruct V as ((h & E) & V).
  destruct st as [G ac]. cbn [fst snd] in *. unfold contribute.
  destruct (ac a) as [b|] eqn:Eb.
  - pose proof (V _ _ Eb) as Hb. split; [|split; [|split]].
    + split; cbn.
      * exists (Add b c :: h). rewrite E. reflexivity.
      * intros j d. unfold upd. destruct (Nat.eqb j a); [intros [= <-]; lia|]. intro H. apply V in H. lia.
    + exists [Add b c]. reflexivity.
    + cbn. intros j. unfold upd. destruct (Nat.eqb_spec j a); [trivial|congruence].
    + intros Ha z. unfold weight.
      rewrite <- (total_one n a (phi G c * z a)) by exact Ha. rewrite <- total_plus. apply total_ext.
      intros j Hj. unfold acc. cbn [fst snd]. unfold upd.
      destruct (Nat.eqb_spec j a) as [->|Nj].
      * rewrite Eb, phi_add by lia. ring.
      * destruct (ac j) as [d|] eqn:Ed; [|ring]. rewrite phi_stable by (apply (V _ _ Ed)). ring.
  - split; [|split; [|split]].
    + split; cbn.
      * exists h. exact E.
      * intros j d. unfold upd. destruct (Nat.eqb j a); [intros [= <-]; exact Hc|]. intro H. apply V in H. lia.
    + exists []. reflexivity.
    + cbn. intros j. unfold upd. destruct (Nat.eqb_spec j a); [trivial|congruence].
    + intros Ha z. unfold weight.
      rewrite <- (total_one n a (phi G c * z a)) by exact Ha. rewrite <- total_plus. apply total_ext.
      intros j Hj. unfold acc. cbn [fst snd]. unfold upd.
      destruct (Nat.eqb_spec j a) as [->|Nj]; [rewrite Eb; ring|]. destruct (ac j); ring.
Qed.

(** A node passes on [phi gi] times the way it depends on its arguments. *)
Definition passes (G0 : graph) (st st' : state) (l : list nat) (f : (nat -> R) -> R) : Prop :=
  valid G0 st' /\ (exists h, fst st' = h ++ fst st) /\
  (forall j, snd st' j <> snd st j -> In j l) /\
  forall z, weight st' z = weight st z + f z.

Lemma passes_refl G0 st l f : valid G0 st -> (forall z, f z = 0) -> passes G0 st st l f.
Proof.
  intros V H. split; [exact V|]. split; [exists []; reflexivity|].
  split; [intros j E; congruence|]. intro z. rewrite H. ring.
Qed.
Lemma passes_trans G0 a b c l f g h :
  passes G0 a b l f -> passes G0 b c l g -> (forall z, h z = f z + g z) -> passes G0 a c l h.
Proof.
  intros (_ & (h1 & E1) & J1 & W1) (V & (h2 & E2) & J2 & W2) H. split; [exact V|].
  split; [exists (h2 ++ h1); rewrite E2, E1; apply app_assoc|].
  split.
  - intros j N. assert (D : snd c j = snd b j \/ snd c j <> snd b j).
    { destruct (snd c j) as [x1|], (snd b j) as [x2|]; try (right; congruence); [|left; reflexivity].
      destruct (Nat.eq_dec x1 x2); [left|right]; congruence. }
    destruct D as [D|D]; [apply J1; congruence|apply J2, D].
  - intro z. rewrite W2, W1, H. ring.
Qed.
Lemma passes_contribute G0 st a c l : valid G0 st -> (c < length (fst st))%nat -> (n <= length G0)%nat ->
  (a < n)%nat -> In a l -> passes G0 st (contribute O st a c) l (fun z => phi (fst st) c * z a).
Proof.
  intros V Hc Hn Ha Hl. destruct (contribute_ok G0 st a c V Hc Hn) as (A & B & C & D).
  split; [exact A|]. split; [exact B|]. split; [|exact (D Ha)]. intros j N. rewrite (C j N). exact Hl.
Qed.
(** The same after a node was emitted. *)
Lemma passes_emit G0 st nd st' l f : valid G0 st ->
  passes G0 (nd :: fst st, snd st) st' l f -> passes G0 st st' l f.
Proof.
  intros V (A & (h & E) & C & D). split; [exact A|]. split; [exists (h ++ [nd]); rewrite E, <- app_assoc; reflexivity|].
  split; [exact C|]. intro z. rewrite D, (emit_weight G0) by exact V. reflexivity.
Qed.

Lemma apply_back_ok G0 p all gi : G0 = Gs -> (n <= length G0)%nat -> (forall a, In a all -> (a < m)%nat) ->
  forall args k st, valid G0 st -> (gi < length (fst st))%nat -> (forall a, In a args -> (a < m)%nat) ->
    (forall a, In a args -> In a all) ->
    passes G0 st (apply_back O p all gi k args st) all
      (fun z => phi (fst st) gi *
                rsum (map2 (fun k a => ev O (dp O p k) (map (x (fst st)) all) * z a) (seq k (length args)) args)).
Proof.
  intros HGs Hn Hall. induction args as [|a args IH]; intros k [G ac] V Hg Hargs Hin.
  - apply passes_refl; [exact V|]. intro z. cbn. ring.
  - cbn [apply_back length seq]. pose proof (valid_len _ _ V) as Hl. cbn [fst] in Hl, Hg.
    set (G1 := Apply (dp O p k) all :: G).
    assert (V1 : valid G0 (G1, ac)) by exact (emit_valid G0 (G, ac) _ V).
    assert (V2 : valid G0 (Mul gi (length G) :: G1, ac)) by exact (emit_valid G0 (G1, ac) _ V1).
    apply (passes_emit G0 (G, ac) (Apply (dp O p k) all) _ _ _ V). cbn [fst snd]. fold G1.
    apply (passes_emit G0 (G1, ac) (Mul gi (length G)) _ _ _ V1). cbn [fst snd].
    assert (La : length G1 = S (length G)) by reflexivity.
    assert (P : passes G0 (Mul gi (length G) :: G1, ac)
       (contribute O (Mul gi (length G) :: G1, ac) a (length G1)) all
       (fun z => phi (Mul gi (length G) :: G1) (length G1) * z a)).
    { apply passes_contribute; [exact V2|cbn; lia|exact Hn| |apply Hin; left; reflexivity].
      specialize (Hargs a (or_introl eq_refl)). lia. }
    destruct P as (V3 & (h & E3) & J3 & W3).
    assert (Q := IH (S k) (contribute O (Mul gi (length G) :: G1, ac) a (length G1)) V3).
    assert (L3 : (length G1 < length (fst (contribute O (Mul gi (length G) :: G1, ac) a (length G1))))%nat).
    { rewrite E3, app_length. cbn. lia. }
    eapply passes_trans.
    { split; [exact V3|]. split; [exists h; exact E3|]. split; [exact J3|exact W3]. }
    { apply Q; [lia|intros; apply Hargs; right; assumption|intros; apply Hin; right; assumption]. }
    intro z. rewrite map2_cons, rsum_cons. cbn [fst].
    set (S1 := rsum _). set (S2 := rsum _).
    assert (ES : S1 = S2).
    { unfold S1, S2. f_equal. apply map2_ext. intros k' b Hb. f_equal. f_equal.
      apply map_ext_in. intros c Hc. specialize (Hall c Hc). cbn [fst] in E3.
      rewrite E3, (stable_ext x) by (exact x_stable || (cbn; lia)).
      rewrite x_stable by (cbn; lia). unfold G1. rewrite x_stable by lia. reflexivity. }
    rewrite ES. clear ES.
    assert (Eg : phi (fst (contribute O (Mul gi (length G) :: G1, ac) a (length G1))) gi = phi G gi).
    { cbn [fst] in E3. rewrite E3, (stable_ext phi) by (exact phi_stable || (cbn; lia)).
      rewrite phi_stable by (cbn; lia). unfold G1. rewrite phi_stable by lia. reflexivity. }
    rewrite Eg.
    rewrite phi_mul; [|lia|lia|lia|].
    2: { split.
         { destruct V1 as ((h1 & E1) & _). cbn [fst] in E1. exists h1. rewrite E1, HGs. reflexivity. }
         right. exists (dp O p k), all. split; [unfold G1; cbn; rewrite Nat.eqb_refl; reflexivity|]. split; [lia|exact Hall]. }
    unfold G1. rewrite (phi_stable _ G gi Hg). rewrite x_apply by (try lia; exact Hall). ring.
Qed.

Lemma propagate_ok G0 st gi nd : G0 = Gs -> (n <= length G0)%nat -> valid G0 st -> (gi < length (fst st))%nat ->
  (forall a, In a (args_of O nd) -> (a < m)%nat) ->
  passes G0 st (propagate O st gi nd) (args_of O nd)
    (fun z => phi (fst st) gi * lin (x (fst st)) nd z).
Proof.
  intros HGs Hn V Hg Hargs. pose proof (valid_len _ _ V) as Hl.
  destruct nd as [k|r| |p args|a b|a b]; cbn [propagate lin args_of] in *.
  1-3: apply passes_refl; [exact V|intro; ring].
  - apply apply_back_ok; auto.
  - assert (Ha : (a < n)%nat) by (specialize (Hargs a (or_introl eq_refl)); lia).
    assert (Hb : (b < n)%nat) by (specialize (Hargs b (or_intror (or_introl eq_refl))); lia).
    pose proof (passes_contribute G0 st a gi [a; b] V Hg Hn Ha (or_introl eq_refl)) as P1.
    pose proof P1 as (V1 & (h & E1) & _ & _).
    assert (Hg1 : (gi < length (fst (contribute O st a gi)))%nat) by (rewrite E1, app_length; lia).
    eapply passes_trans; [exact P1|apply (passes_contribute G0 _ b gi [a; b] V1 Hg1 Hn Hb); right; left; reflexivity|].
    intro z. cbn. rewrite E1, (stable_ext phi) by (assumption || exact phi_stable). ring.
  - assert (Ha : (a < m)%nat) by (exact (Hargs a (or_introl eq_refl))).
    assert (Hb : (b < m)%nat) by (exact (Hargs b (or_intror (or_introl eq_refl)))).
    destruct st as [G ac]. cbn [fst snd] in *.
    apply (passes_emit G0 (G, ac) (Mul gi b) _ _ _ V). cbn [fst snd].
    assert (V1 : valid G0 (Mul gi b :: G, ac)) by exact (emit_valid G0 (G, ac) _ V).
    assert (P1 : passes G0 (Mul gi b :: G, ac) (contribute O (Mul gi b :: G, ac) a (length G)) [a; b]
                   (fun z => phi (Mul gi b :: G) (length G) * z a)).
    { apply passes_contribute; [exact V1|cbn; lia|exact Hn|lia|left; reflexivity]. }
    destruct (contribute O (Mul gi b :: G, ac) a (length G)) as [G1 ac1] eqn:E.
    pose proof P1 as (V2 & (h & E1) & _ & _). cbn [fst] in E1.
    eapply passes_trans; [exact P1| |].
    { apply (passes_emit G0 (G1, ac1) (Mul gi a) _ _ _ V2). cbn [fst snd].
      apply passes_contribute; [exact (emit_valid G0 (G1, ac1) _ V2)|cbn; lia|exact Hn|lia|right; left; reflexivity]. }
    intro z. cbn.
    assert (L1 : (length G < length G1)%nat) by (rewrite E1, app_length; cbn; lia).
    assert (X0 : exists h, G = h ++ Gs).
    { destruct V as ((h1 & F1) & _). cbn [fst] in F1. exists h1. rewrite F1, HGs. reflexivity. }
    assert (X1 : exists h, G1 = h ++ Gs).
    { destruct V2 as ((h1 & F1) & _). cbn [fst] in F1. exists h1. rewrite F1, HGs. reflexivity. }
    rewrite !phi_mul by (first [lia | split; [assumption|left; assumption]]).
    rewrite E1. change (h ++ Mul gi b :: G) with (h ++ [Mul gi b] ++ G). rewrite app_assoc.
    rewrite (stable_ext phi), (stable_ext x) by (first [assumption | lia]). ring.
Qed.

(** The whole pass: what was there before it, against how the nodes move, is what there is at the
    end, against how they are moved. *)
Variables (stops : list nat) (v T : nat -> R) (G0 : graph).
Hypothesis HGs : G0 = Gs.
Hypothesis Hn : length G0 = n.
Hypothesis args_m : forall i nd, node_at O G0 i = Some nd -> forall a, In a (args_of O nd) -> (a < m)%nat.
Hypothesis args_i : forall i nd, node_at O G0 i = Some nd -> forall a, In a (args_of O nd) -> (a < i)%nat.
Hypothesis HT : forall i nd, node_at O G0 i = Some nd ->
  T i = v i + (if mem i stops then 0 else lin (x G0) nd T).

Definition front (i j : nat) : R := if Nat.ltb j i then T j else v j.
Lemma back_ok i st : (i <= n)%nat -> valid G0 st ->
  valid G0 (back O stops i st) /\ weight (back O stops i st) v = weight st (front i) /\
  (exists h, fst (back O stops i st) = h ++ fst st).
Proof.
  revert st. induction i as [|i IH]; intros st Hi V.
  - cbn. split; [exact V|]. split; [reflexivity|]. exists []. reflexivity.
  - cbn [back].
    destruct (node_at_some G0 i) as (nd & End); [lia|].
    assert (Efr : forall z, weight z (front (S i)) = weight z (front i) + acc z i * (T i - v i)).
    { intro z. unfold weight. rewrite <- (total_one n i (acc z i * (T i - v i))) by lia.
      rewrite <- total_plus. apply total_ext. intros j Hj. unfold front.
      destruct (Nat.eqb_spec j i) as [->|Nj].
      - destruct (Nat.ltb_spec i (S i)); [|lia]. destruct (Nat.ltb_spec i i); [lia|]. ring.
      - destruct (Nat.ltb_spec j (S i)), (Nat.ltb_spec j i); try lia; ring. }
    destruct (snd st i) as [gi|] eqn:Egi.
    + destruct (mem i stops) eqn:Est.
      * destruct (IH st) as (A & B & C); [lia|exact V|]. split; [exact A|]. split; [|exact C].
        rewrite B, Efr, (HT i nd End), Est. ring.
      * pose proof V as ((h0 & E0) & Vacc).
        rewrite E0, node_at_ext, End by lia. rewrite <- E0 in *.
        pose proof (propagate_ok G0 st gi nd HGs ltac:(lia) V (Vacc _ _ Egi) (args_m i nd End)) as (A & (h1 & B) & C & D).
        destruct (IH _ ltac:(lia) A) as (A2 & B2 & (h2 & C2)).
        split; [exact A2|]. split.
        2: { exists (h2 ++ h1). rewrite C2, B. apply app_assoc. }
        rewrite B2, D, Efr. f_equal. unfold acc. rewrite Egi, (HT i nd End), Est.
        replace (v i + lin (x G0) nd T - v i) with (lin (x G0) nd T) by ring. f_equal.
        apply lin_ext.
        -- intros a Ha. rewrite E0. apply (stable_ext x); [exact x_stable|]. specialize (args_i i nd End a Ha). lia.
        -- intros a Ha. unfold front. specialize (args_i i nd End a Ha).
           destruct (Nat.ltb_spec a i); [reflexivity|lia].
    + destruct (IH st) as (A & B & C); [lia|exact V|]. split; [exact A|]. split; [|exact C].
      rewrite B, Efr. unfold acc. rewrite Egi. ring.
Qed.

Lemma seed_ok l : forall st, valid G0 st ->
  (forall y g, In (y, g) l -> (y < n)%nat /\ (g < length (fst st))%nat) ->
  valid G0 (seed O st l) /\ (exists h, fst (seed O st l) = h ++ fst st) /\
  forall z, weight (seed O st l) z = weight st z + rsum (map (fun p => phi (fst st) (snd p) * z (fst p)) l).
Proof.
  induction l as [|[y g] l IH]; intros st V H; cbn [seed].
  - split; [exact V|]. split; [exists []; reflexivity|]. intro z. cbn. ring.
  - destruct (H y g (or_introl eq_refl)) as (Hy & Hg).
    destruct (contribute_ok G0 st y g V Hg ltac:(lia)) as (A & (h & B) & _ & D).
    destruct (IH _ A) as (A2 & (h2 & B2) & C2).
    { intros y' g' I. destruct (H y' g' (or_intror I)) as (P & Q). split; [exact P|]. rewrite B, app_length. lia. }
    split; [exact A2|]. split; [exists (h2 ++ h); rewrite B2, B; apply app_assoc|].
    intro z. rewrite C2, D by exact Hy. cbn [map fst snd]. rewrite rsum_cons. cbn [fst snd].
    rewrite B. rewrite (map_ext_in _ (fun p => phi (fst st) (snd p) * z (fst p))); [ring|].
    intros (y', g') I. cbn. rewrite (stable_ext phi); [reflexivity|exact phi_stable|].
    apply (H y' g' (or_intror I)).
Qed.

Lemma pass_ok l : (forall y g, In (y, g) l -> (y < n)%nat /\ (g < n)%nat) ->
  let st := back O stops n (seed O (G0, fun _ => None) l) in
  valid G0 st /\
  total n (fun j => acc st j * v j) = rsum (map (fun p => phi G0 (snd p) * T (fst p)) l).
Proof.
  intros H st.
  assert (V0 : valid G0 (G0, fun _ => None)).
  { split; [exists []; reflexivity|]. intros j c [=]. }
  destruct (seed_ok l (G0, fun _ => None) V0) as (A & _ & C).
  { intros y g I. destruct (H y g I). cbn. lia. }
  destruct (back_ok n _ (le_n n) A) as (A2 & B2 & _). fold st in A2, B2.
  split; [exact A2|]. fold (weight st v). rewrite B2.
  assert (E : weight (seed O (G0, fun _ => None) l) (front n) = weight (seed O (G0, fun _ => None) l) T).
  { apply total_ext. intros j Hj. unfold front. destruct (Nat.ltb_spec j n); [reflexivity|lia]. }
  rewrite E, C. unfold weight. rewrite (total_ext n _ (fun _ => 0)), total_0; [cbn [fst]; ring|].
  intros; unfold acc; cbn; ring.
Qed.
End Pass.
End Graphs.
