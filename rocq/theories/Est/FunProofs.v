(** Matrix functions. *)
From Coq Require Import String QArith Arith Bool List Reals Lia.
From Verif.Base Require Import Py.
From Verif.Est Require Import Model Spec.
Import ListNotations.
Open Scope list_scope.

Lemma pow_in_spec f e d l : pow_in f e d l = true <-> exists e', In (f, e', d) l /\ (e == e')%Q.
Proof.
  unfold pow_in. rewrite existsb_exists. split.
  - intros ([[f' e'] d'] & H & E). cbn in E. apply andb_prop in E. destruct E as [E1 E3].
    apply andb_prop in E1. destruct E1 as [E1 E2]. apply Nat.eqb_eq in E1, E3. apply Qeq_bool_iff in E2. subst.
    now exists e'.
  - intros (e' & H & E). exists (f, e', d). split; [exact H|]. cbn. rewrite !Nat.eqb_refl.
    apply Qeq_bool_iff in E. now rewrite E.
Qed.
Lemma pair_in_spec p l : pair_in p l = true <-> In p l.
Proof.
  destruct p as [a b]. unfold pair_in. rewrite existsb_exists. split.
  - intros ([a' b'] & H & E). cbn in E. apply andb_prop in E. destruct E as [E1 E2].
    apply Nat.eqb_eq in E1, E2. now subst.
  - intro H. exists (a, b). split; [exact H|]. cbn. now rewrite !Nat.eqb_refl.
Qed.

(** Registrations only grow. *)
Definition extends (r r' : mregs) : Prop :=
  incl (m_pow r) (m_pow r') /\ incl (m_chol r) (m_chol r') /\ incl (m_cholinv r) (m_cholinv r') /\
  incl (m_quants r) (m_quants r').
Lemma extends_refl r : extends r r.
Proof. repeat split; apply incl_refl. Qed.
Lemma extends_trans a b c : extends a b -> extends b c -> extends a c.
Proof. intros (A1 & A2 & A3 & A4) (B1 & B2 & B3 & B4). repeat split; eapply incl_tran; eassumption. Qed.

(** All that is registered was asked for. *)
Definition sound (exps : list Q) (chol cholinv : bool) (r : mregs) : Prop :=
  (forall f e d, In (f, e, d) (m_pow r) -> In e exps) /\
  (forall p, In p (m_chol r) -> chol = true) /\ (forall p, In p (m_cholinv r) -> cholinv = true) /\
  (forall p, In p (m_quants r) -> exists e, In e exps /\ (e == -1)%Q).

(** What a factor's registrations must hold *)
Definition f_pow_done (k : fkind) f e d r : Prop :=
  match k with Diagonal => True | _ => (e == 1)%Q \/ In (f, e, d) (m_pow r) end.
Definition pow_done (b : mblock) e r : Prop :=
  match b with
  | MFull f d => f_pow_done Dense f e d r
  | MDiag => True
  | MKron kl fl dl kr fr dr => f_pow_done kl fl e dl r /\ f_pow_done kr fr e dr r
  | MSeries fl dl fr dr => (e == -1)%Q /\ In (fl, dl) (m_quants r) /\ In (fr, dr) (m_quants r)
  end.
Definition f_chol_done (sel : mregs -> list (nat * nat)) (k : fkind) f d r : Prop :=
  match k with Dense => In (f, d) (sel r) | Diagonal => True | SUA => False end.
Definition chol_done sel (b : mblock) r : Prop :=
  match b with
  | MFull f d => f_chol_done sel Dense f d r
  | MDiag => True
  | MKron kl fl dl kr fr dr => f_chol_done sel kl fl dl r /\ f_chol_done sel kr fr dr r
  | MSeries fl dl fr dr => True
  end.

Lemma f_pow_mono k f e d r r' : extends r r' -> f_pow_done k f e d r -> f_pow_done k f e d r'.
Proof. intros (X & _). destruct k; cbn; auto; intros [H|H]; auto. Qed.
Lemma pow_mono b e r r' : extends r r' -> pow_done b e r -> pow_done b e r'.
Proof.
  intros X. destruct b; cbn [pow_done]; [now apply f_pow_mono|auto| |].
  - intros [H1 H2]. split; now apply f_pow_mono with (r := r).
  - destruct X as (_ & _ & _ & X). intros (H1 & H2 & H3). auto.
Qed.
Lemma f_chol_mono sel k f d r r' : incl (sel r) (sel r') -> f_chol_done sel k f d r -> f_chol_done sel k f d r'.
Proof. intros X. destruct k; cbn; auto. Qed.
Lemma chol_mono sel b r r' : incl (sel r) (sel r') -> chol_done sel b r -> chol_done sel b r'.
Proof.
  intros X. destruct b; cbn [chol_done]; [now apply f_chol_mono|auto| |auto].
  intros [H1 H2]. split; now apply f_chol_mono with (r := r).
Qed.

Ltac ext := repeat split; cbn; try apply incl_refl; try (apply incl_tl; apply incl_refl).

Lemma f_pow_step k f e d r r' : f_register_matpower k f e d r = Ok r' ->
  extends r r' /\ f_pow_done k f e d r' /\
  (forall exps c i, In e exps -> sound exps c i r -> sound exps c i r').
Proof.
  destruct k; cbn.
  - destruct (Qeq_bool e 1) eqn:E; intros [= <-].
    + split; [apply extends_refl|]. split; [left; now apply Qeq_bool_iff|auto].
    + split; [ext|]. split; [right; now left|]. intros exps c i He (S1 & S2 & S3 & S4).
      repeat split; cbn; try assumption. intros f' e' d' [H|H]; [now inversion H; subst|eauto].
  - intros [= <-]. split; [apply extends_refl|]. split; auto.
  - destruct (Qeq_bool e 1) eqn:E; [intros [= <-]|].
    + split; [apply extends_refl|]. split; [left; now apply Qeq_bool_iff|auto].
    + destruct (Qeq_bool e (-1)); intros [= <-].
      split; [ext|]. split; [right; now left|]. intros exps c i He (S1 & S2 & S3 & S4).
      repeat split; cbn; try assumption. intros f' e' d' [H|H]; [now inversion H; subst|eauto].
Qed.

Lemma pow_step b e r r' : register_matpower b e r = Ok r' ->
  extends r r' /\ pow_done b e r' /\ (forall exps c i, In e exps -> sound exps c i r -> sound exps c i r').
Proof.
  destruct b as [f d| |kl fl dl kr fr dr|fl dl fr dr].
  - apply f_pow_step.
  - intros [= <-]. split; [apply extends_refl|]. split; cbn; auto.
  - cbn [register_matpower]. destruct (f_register_matpower kl fl e dl r) as [r1|] eqn:E1; [|discriminate]. cbn [bind].
    intro E2. destruct (f_pow_step _ _ _ _ _ _ E1) as (X1 & D1 & S1). destruct (f_pow_step _ _ _ _ _ _ E2) as (X2 & D2 & S2).
    split; [now apply extends_trans with r1|]. split; [split; [now apply f_pow_mono with r1|exact D2]|]. auto.
  - cbn. destruct (Qeq_bool e (-1)) eqn:E; [|discriminate]. intros [= <-]. apply Qeq_bool_iff in E.
    split; [|split].
    + ext. now do 2 apply incl_tl.
    + cbn. tauto.
    + intros exps c i He (S1 & S2 & S3 & S4). repeat split; cbn; try assumption.
      intros p [H|[H|H]]; eauto.
Qed.

Lemma pows_step b es : forall r r', foldM (fun e r => register_matpower b e r) es r = Ok r' ->
  extends r r' /\ (forall e, In e es -> pow_done b e r') /\
  (forall exps c i, incl es exps -> sound exps c i r -> sound exps c i r').
Proof.
  induction es as [|e es IH]; intros r r'; cbn.
  - intros [= <-]. split; [apply extends_refl|]. split; [intros e []|auto].
  - destruct (register_matpower b e r) as [r1|] eqn:E; [|discriminate]. cbn. intro H.
    destruct (pow_step _ _ _ _ E) as (X1 & D1 & S1). destruct (IH _ _ H) as (X2 & D2 & S2).
    split; [now apply extends_trans with r1|]. split.
    + intros e' [<-|K]; [now apply pow_mono with r1|auto].
    + intros exps c i Hi Hs. apply S2; [intros x Hx; apply Hi; now right|]. apply S1; [apply Hi; now left|exact Hs].
Qed.

Lemma f_chol_step k f d r r' : f_register_cholesky k f d r = Ok r' ->
  extends r r' /\ f_chol_done m_chol k f d r' /\ (forall exps i, sound exps true i r -> sound exps true i r').
Proof.
  destruct k; cbn; intros [= <-]; (split; [ext|]); (split; [cbn; auto|]); try (intros; assumption).
  intros exps i (S1 & S2 & S3 & S4). repeat split; cbn; assumption.
Qed.
Lemma f_cholinv_step k f d r r' : f_register_cholesky_inverse k f d r = Ok r' ->
  extends r r' /\ f_chol_done m_cholinv k f d r' /\ (forall exps c, sound exps c true r -> sound exps c true r').
Proof.
  destruct k; cbn; intros [= <-]; (split; [ext|]); (split; [cbn; auto|]); try (intros; assumption).
  intros exps i (S1 & S2 & S3 & S4). repeat split; cbn; assumption.
Qed.

Lemma chol_step b r r' : register_cholesky b r = Ok r' ->
  extends r r' /\ chol_done m_chol b r' /\ (forall exps i, sound exps true i r -> sound exps true i r').
Proof.
  destruct b as [f d| |kl fl dl kr fr dr|fl dl fr dr]; cbn [register_cholesky].
  - apply f_chol_step.
  - intros [= <-]. split; [apply extends_refl|]. cbn; auto.
  - destruct (f_register_cholesky kl fl dl r) as [r1|] eqn:E1; [|discriminate]. cbn [bind]. intro E2.
    destruct (f_chol_step _ _ _ _ _ E1) as (X1 & D1 & S1). destruct (f_chol_step _ _ _ _ _ E2) as (X2 & D2 & S2).
    split; [now apply extends_trans with r1|]. split; [|auto]. split; [|exact D2].
    apply f_chol_mono with r1; [apply X2|exact D1].
  - destruct (f_register_cholesky Dense fl dl r) as [r1|] eqn:E1; [|discriminate]. cbn [bind]. intro E2.
    destruct (f_chol_step _ _ _ _ _ E1) as (X1 & D1 & S1). destruct (f_chol_step _ _ _ _ _ E2) as (X2 & D2 & S2).
    split; [now apply extends_trans with r1|]. cbn; auto.
Qed.
Lemma cholinv_step b r r' : register_cholesky_inverse b r = Ok r' ->
  extends r r' /\ chol_done m_cholinv b r' /\ (forall exps c, sound exps c true r -> sound exps c true r').
Proof.
  destruct b as [f d| |kl fl dl kr fr dr|fl dl fr dr]; cbn [register_cholesky_inverse].
  - apply f_cholinv_step.
  - intros [= <-]. split; [apply extends_refl|]. cbn; auto.
  - destruct (f_register_cholesky_inverse kl fl dl r) as [r1|] eqn:E1; [|discriminate]. cbn [bind]. intro E2.
    destruct (f_cholinv_step _ _ _ _ _ E1) as (X1 & D1 & S1). destruct (f_cholinv_step _ _ _ _ _ E2) as (X2 & D2 & S2).
    split; [now apply extends_trans with r1|]. split; [|auto]. split; [|exact D2].
    apply f_chol_mono with r1; [apply X2|exact D1].
  - destruct (f_register_cholesky_inverse Dense fl dl r) as [r1|] eqn:E1; [|discriminate]. cbn [bind]. intro E2.
    destruct (f_cholinv_step _ _ _ _ _ E1) as (X1 & D1 & S1). destruct (f_cholinv_step _ _ _ _ _ E2) as (X2 & D2 & S2).
    split; [now apply extends_trans with r1|]. cbn; auto.
Qed.

Lemma registered exps chol cholinv bs r : register_matrix_functions exps chol cholinv bs = Ok r ->
  sound exps chol cholinv r /\
  forall b, In b bs -> (forall e, In e exps -> pow_done b e r) /\
    (chol = true -> chol_done m_chol b r) /\ (cholinv = true -> chol_done m_cholinv b r).
Proof.
  unfold register_matrix_functions.
  enough (forall bs r0 r, foldM (fun b r =>
      do r1 <- foldM (fun e r => register_matpower b e r) exps r ;
      do r2 <- (if chol then register_cholesky b r1 else Ok r1) ;
      if cholinv then register_cholesky_inverse b r2 else Ok r2) bs r0 = Ok r ->
    extends r0 r /\ (sound exps chol cholinv r0 -> sound exps chol cholinv r) /\
    forall b, In b bs -> (forall e, In e exps -> pow_done b e r) /\
      (chol = true -> chol_done m_chol b r) /\ (cholinv = true -> chol_done m_cholinv b r)).
  { intro H0. destruct (H bs no_regs r H0) as (_ & S & D). split; [|exact D]. apply S.
    repeat split; cbn; tauto. }
  clear. induction bs as [|b bs IH]; intros r0 r; cbn [foldM].
  - intros [= <-]. split; [apply extends_refl|]. split; [auto|]. intros b [].
  - destruct (foldM _ exps r0) as [r1|] eqn:E1; [|discriminate]. cbn [bind].
    destruct (pows_step _ _ _ _ E1) as (X1 & D1 & S1).
    assert (K2 : forall r2, (if chol then register_cholesky b r1 else Ok r1) = Ok r2 ->
       extends r1 r2 /\ (chol = true -> chol_done m_chol b r2) /\
       (sound exps chol cholinv r1 -> sound exps chol cholinv r2)).
    { destruct chol; intros r2 H2.
      - destruct (chol_step _ _ _ H2) as (A & B & C). auto.
      - inversion H2; subst. split; [apply extends_refl|]. split; [discriminate|auto]. }
    destruct (if chol then register_cholesky b r1 else Ok r1) as [r2|] eqn:E2; [|discriminate]. cbn [bind].
    destruct (K2 r2 eq_refl) as (X2 & D2 & S2). clear K2.
    assert (K3 : forall r3, (if cholinv then register_cholesky_inverse b r2 else Ok r2) = Ok r3 ->
       extends r2 r3 /\ (cholinv = true -> chol_done m_cholinv b r3) /\
       (sound exps chol cholinv r2 -> sound exps chol cholinv r3)).
    { destruct cholinv; intros r3 H3.
      - destruct (cholinv_step _ _ _ H3) as (A & B & C). auto.
      - inversion H3; subst. split; [apply extends_refl|]. split; [discriminate|auto]. }
    destruct (if cholinv then register_cholesky_inverse b r2 else Ok r2) as [r3|] eqn:E3; [|discriminate]. cbn [bind].
    destruct (K3 r3 eq_refl) as (X3 & D3 & S3). clear K3. intro H.
    destruct (IH _ _ H) as (X4 & S4 & D4).
    assert (X34 : extends r2 r) by now apply extends_trans with r3.
    assert (X24 : extends r1 r) by now apply extends_trans with r2.
    split; [now apply extends_trans with r1|]. split.
    + intro Hs. apply S4, S3, S2, S1; [apply incl_refl|exact Hs].
    + intros b' [<-|K]; [|auto]. split; [intros e He; apply pow_mono with r1; auto|]. split; intro Hc.
      * apply chol_mono with r2; [apply X34|auto].
      * apply chol_mono with r3; [apply X4|auto].
Qed.

Lemma qeq_false e q : Qeq_bool e q = false <-> ~ (e == q)%Q.
Proof. rewrite <- Qeq_bool_iff. destruct (Qeq_bool e q); split; congruence. Qed.

Ltac ok := split; [intros _|reflexivity].

Lemma f_get_pow exps c i r k f e d : k <> Diagonal ->
  sound exps c i r -> (forall e, In e exps -> f_pow_done k f e d r) ->
  (k = SUA -> forall e, In e exps -> (e == 1)%Q \/ (e == -1)%Q) ->
  (f_get_matpower r k f e d = Ok tt <-> (e == 1)%Q \/ asked exps e).
Proof.
  intros Hk (S1 & _) D Hs.
  assert (P : pow_in f e d (m_pow r) = true -> asked exps e).
  { intro H. apply pow_in_spec in H. destruct H as (e' & H & E). exists e'. split; [exact (S1 _ _ _ H)|exact E]. }
  assert (Q : asked exps e -> ~ (e == 1)%Q -> pow_in f e d (m_pow r) = true).
  { intros (e' & He & E) N. apply pow_in_spec. exists e'. split; [|exact E].
    specialize (D e' He). destruct k; [|contradiction|]; destruct D as [D|D]; try exact D;
      exfalso; apply N; now rewrite E. }
  destruct k; [|contradiction|]; cbn.
  - destruct (Qeq_bool e 1) eqn:E; [apply Qeq_bool_iff in E; now split; [left|]|]. apply qeq_false in E.
    destruct (pow_in f e d (m_pow r)) eqn:M.
    + split; [right; now apply P|reflexivity].
    + split; [discriminate|]. intros [H|H]; [contradiction|]. exfalso; pose proof (Q H E); congruence.
  - destruct (Qeq_bool e 1) eqn:E; [apply Qeq_bool_iff in E; now split; [left|]|]. apply qeq_false in E.
    destruct (Qeq_bool e (-1)) eqn:E'.
    + destruct (pow_in f e d (m_pow r)) eqn:M.
      * split; [right; now apply P|reflexivity].
      * split; [discriminate|]. intros [H|H]; [contradiction|]. exfalso; pose proof (Q H E); congruence.
    + apply qeq_false in E'. split; [discriminate|]. intros [H|(e' & He & H)]; [contradiction|].
      destruct (Hs eq_refl e' He) as [K|K]; exfalso; [apply E|apply E']; now rewrite H.
Qed.

Lemma bind_unit (a b : res unit) : (do _ <- a ; b) = Ok tt <-> a = Ok tt /\ b = Ok tt.
Proof. destruct a as [[]|]; cbn; [tauto|]. split; [discriminate|intros [H _]; discriminate]. Qed.

(** SUA factors accept the powers 1 and -1 only. *)
Lemma f_reg_sua f e d r r' : f_register_matpower SUA f e d r = Ok r' -> (e == 1)%Q \/ (e == -1)%Q.
Proof.
  cbn. destruct (Qeq_bool e 1) eqn:E; [left; now apply Qeq_bool_iff|].
  destruct (Qeq_bool e (-1)) eqn:E'; [right; now apply Qeq_bool_iff|discriminate].
Qed.

Definition factor_of (b : mblock) (k : fkind) (f d : nat) : Prop :=
  match b with
  | MFull f' d' => k = Dense /\ f = f' /\ d = d'
  | MKron kl fl dl kr fr dr => (k = kl /\ f = fl /\ d = dl) \/ (k = kr /\ f = fr /\ d = dr)
  | _ => False
  end.

Lemma reg_inv exps chol cholinv bs r b : register_matrix_functions exps chol cholinv bs = Ok r -> In b bs ->
  (forall e, In e exps -> exists r1 r2, register_matpower b e r1 = Ok r2) /\
  (chol = true -> exists r1 r2, register_cholesky b r1 = Ok r2) /\
  (cholinv = true -> exists r1 r2, register_cholesky_inverse b r1 = Ok r2).
Proof.
  unfold register_matrix_functions. generalize no_regs. revert b.
  induction bs as [|b' bs IH]; intros b r0 H Hb; [destruct Hb|]. cbn [foldM] in H.
  destruct (foldM (fun e r => register_matpower b' e r) exps r0) as [r1|] eqn:E1; [|discriminate]. cbn [bind] in H.
  destruct (if chol then register_cholesky b' r1 else Ok r1) as [r2|] eqn:E2; [|discriminate]. cbn [bind] in H.
  destruct (if cholinv then register_cholesky_inverse b' r2 else Ok r2) as [r3|] eqn:E3; [|discriminate]. cbn [bind] in H.
  destruct Hb as [->|Hb]; [|exact (IH b r3 H Hb)]. clear IH H. split; [|split].
  - clear E2 E3. revert r0 r1 E1. induction exps as [|e0 es IH]; intros r0 r1 E1 e He; [destruct He|].
    cbn in E1. destruct (register_matpower b e0 r0) as [r'|] eqn:E; [|discriminate]. cbn in E1.
    destruct He as [->|He]; [eauto|exact (IH r' r1 E1 e He)].
  - intros ->. eauto.
  - intros ->. eauto.
Qed.

Lemma sua_exps exps chol cholinv bs r b : register_matrix_functions exps chol cholinv bs = Ok r -> In b bs ->
  sua_block b -> chol = false /\ cholinv = false /\ forall e, In e exps -> (e == 1)%Q \/ (e == -1)%Q.
Proof.
  intros H Hb (kl & fl & dl & kr & fr & dr & -> & Hk). destruct (reg_inv _ _ _ _ _ _ H Hb) as (P & C & I).
  split; [|split].
  - destruct chol; [|reflexivity]. exfalso. destruct (C eq_refl) as (r1 & r2 & K). cbn in K.
    destruct Hk as [->| ->]; [discriminate|]. destruct (f_register_cholesky kl fl dl r1); discriminate.
  - destruct cholinv; [|reflexivity]. exfalso. destruct (I eq_refl) as (r1 & r2 & K). cbn in K.
    destruct Hk as [->| ->]; [discriminate|]. destruct (f_register_cholesky_inverse kl fl dl r1); discriminate.
  - intros e He. destruct (P e He) as (r1 & r2 & K). cbn [register_matpower] in K.
    destruct (f_register_matpower kl fl e dl r1) as [r'|] eqn:E; [|discriminate]. cbn [bind] in K.
    destruct Hk as [->| ->]; eapply f_reg_sua; eassumption.
Qed.

Lemma powers exps chol cholinv bs r b e :
  register_matrix_functions exps chol cholinv bs = Ok r -> In b bs ->
  ~ diagonal_block b -> ~ series_block b ->
  (multiply_matpower r b e = Ok tt <-> (e == 1)%Q \/ asked exps e).
Proof.
  intros H Hb Nd Ns. destruct (registered _ _ _ _ _ H) as (S & D). destruct (D b Hb) as (P & _ & _).
  pose proof (sua_exps _ _ _ _ _ _ H Hb) as U.
  destruct b as [f d| |kl fl dl kr fr dr|fl dl fr dr]; cbn [multiply_matpower].
  - eapply f_get_pow; try eassumption; discriminate.
  - exfalso. apply Nd. now left.
  - assert (Ul : kl = SUA -> forall e, In e exps -> (e == 1)%Q \/ (e == -1)%Q).
    { intros ->. apply U. exists SUA, fl, dl, kr, fr, dr. auto. }
    assert (Ur : kr = SUA -> forall e, In e exps -> (e == 1)%Q \/ (e == -1)%Q).
    { intros ->. apply U. exists kl, fl, dl, SUA, fr, dr. auto. }
    assert (L : kl <> Diagonal -> (f_get_matpower r kl fl e dl = Ok tt <-> (e == 1)%Q \/ asked exps e)).
    { intro N. eapply f_get_pow; try eassumption. intros e' He. apply (P e' He). }
    assert (R : kr <> Diagonal -> (f_get_matpower r kr fr e dr = Ok tt <-> (e == 1)%Q \/ asked exps e)).
    { intro N. eapply f_get_pow; try eassumption. intros e' He. apply (P e' He). }
    rewrite bind_unit.
    assert (K : kl <> Diagonal \/ kr <> Diagonal).
    { destruct kl, kr; try (left; discriminate); try (right; discriminate).
      exfalso. apply Nd. right. now exists fl, dl, fr, dr. }
    destruct kl, kr; try (rewrite L by discriminate); try (rewrite R by discriminate); cbn [f_get_matpower]; tauto || (destruct K; congruence).
  - exfalso. apply Ns. now exists fl, dl, fr, dr.
Qed.

Lemma series_powers exps chol cholinv bs r b e :
  register_matrix_functions exps chol cholinv bs = Ok r -> In b bs -> series_block b ->
  (forall e, In e exps -> (e == -1)%Q) /\
  (multiply_matpower r b e = Ok tt -> asked exps e) /\ (asked exps e -> multiply_matpower r b e = Ok tt).
Proof.
  intros H Hb (fl & dl & fr & dr & ->). destruct (registered _ _ _ _ _ H) as (S & D). destruct (D _ Hb) as (P & _ & _).
  split; [intros e' He; exact (proj1 (P e' He))|]. cbn [multiply_matpower]. split.
  - destruct (Qeq_bool e (-1)) eqn:E; [|discriminate]. apply Qeq_bool_iff in E.
    destruct (pair_in (fl, dl) (m_quants r)) eqn:L; [|discriminate]. intros _. apply pair_in_spec in L.
    destruct S as (_ & _ & _ & S). destruct (S _ L) as (e' & He & E'). exists e'. split; [exact He|]. now rewrite E, E'.
  - intros (e' & He & E). destruct (P e' He) as (E' & L & R). rewrite E' in E. apply Qeq_bool_iff in E. rewrite E.
    apply pair_in_spec in L, R. now rewrite L, R.
Qed.

Lemma diagonal_powers r b e : diagonal_block b -> multiply_matpower r b e = Ok tt /\
  multiply_cholesky r b = Ok tt /\ multiply_cholesky_inverse r b = Ok tt.
Proof. intros [->|(fl & dl & fr & dr & ->)]; repeat split; reflexivity. Qed.

Lemma f_get_chol exps c i r k f d : sound exps c i r -> (c = true -> f_chol_done m_chol k f d r) ->
  k <> Diagonal -> (f_get_cholesky r k f d = Ok tt <-> c = true).
Proof.
  intros (_ & S & _) D N. destruct k; [|contradiction|]; cbn in *.
  - destruct (pair_in (f, d) (m_chol r)) eqn:E.
    + split; [|reflexivity]. intros _. apply pair_in_spec in E. eauto.
    + split; [discriminate|]. intro K. apply D, pair_in_spec in K. congruence.
  - split; [discriminate|]. intro K. destruct (D K).
Qed.
Lemma f_get_cholinv exps c i r k f d : sound exps c i r -> (i = true -> f_chol_done m_cholinv k f d r) ->
  k <> Diagonal -> (f_get_cholesky_inverse r k f d = Ok tt <-> i = true).
Proof.
  intros (_ & _ & S & _) D N. destruct k; [|contradiction|]; cbn in *.
  - destruct (pair_in (f, d) (m_cholinv r)) eqn:E.
    + split; [|reflexivity]. intros _. apply pair_in_spec in E. eauto.
    + split; [discriminate|]. intro K. apply D, pair_in_spec in K. congruence.
  - split; [discriminate|]. intro K. destruct (D K).
Qed.

Lemma choleskys exps chol cholinv bs r b :
  register_matrix_functions exps chol cholinv bs = Ok r -> In b bs ->
  ~ diagonal_block b -> ~ series_block b ->
  (multiply_cholesky r b = Ok tt <-> chol = true) /\ (multiply_cholesky_inverse r b = Ok tt <-> cholinv = true).
Proof.
  intros H Hb Nd Ns. destruct (registered _ _ _ _ _ H) as (S & D). destruct (D b Hb) as (_ & C & I).
  destruct b as [f d| |kl fl dl kr fr dr|fl dl fr dr]; cbn [multiply_cholesky multiply_cholesky_inverse].
  - split; [eapply f_get_chol|eapply f_get_cholinv]; try eassumption; discriminate.
  - exfalso. apply Nd. now left.
  - rewrite !bind_unit.
    pose proof (f_get_chol _ _ _ _ kl fl dl S (fun e => proj1 (C e))) as L.
    pose proof (f_get_chol _ _ _ _ kr fr dr S (fun e => proj2 (C e))) as R.
    pose proof (f_get_cholinv _ _ _ _ kl fl dl S (fun e => proj1 (I e))) as L'.
    pose proof (f_get_cholinv _ _ _ _ kr fr dr S (fun e => proj2 (I e))) as R'.
    assert (K : kl <> Diagonal \/ kr <> Diagonal).
    { destruct kl, kr; try (left; discriminate); try (right; discriminate).
      exfalso. apply Nd. right. now exists fl, dl, fr, dr. }
    destruct kl, kr; try (rewrite L, L' by discriminate); try (rewrite R, R' by discriminate); cbn [f_get_cholesky f_get_cholesky_inverse]; tauto || (destruct K; congruence).
  - exfalso. apply Ns. now exists fl, dl, fr, dr.
Qed.

Lemma series_cholesky r b : series_block b ->
  multiply_cholesky r b = Raise TypeError /\ multiply_cholesky_inverse r b = Raise TypeError.
Proof. intros (fl & dl & fr & dr & ->). split; reflexivity. Qed.

(** When the registration succeeds *)
Definition may_register (exps : list Q) (chol cholinv : bool) (b : mblock) : Prop :=
  (series_block b -> forall e, In e exps -> (e == -1)%Q) /\
  (sua_block b -> chol = false /\ cholinv = false /\ forall e, In e exps -> (e == 1)%Q \/ (e == -1)%Q).

Lemma f_pow_ok k f e d r : (k = SUA -> (e == 1)%Q \/ (e == -1)%Q) -> exists r', f_register_matpower k f e d r = Ok r'.
Proof.
  destruct k; cbn; eauto. intro H. destruct (Qeq_bool e 1) eqn:E; [eauto|]. apply qeq_false in E.
  destruct (H eq_refl) as [K|K]; [contradiction|]. apply Qeq_bool_iff in K. rewrite K. eauto.
Qed.

Lemma may_register_ok exps chol cholinv b r : may_register exps chol cholinv b ->
  exists r', (do r1 <- foldM (fun e r => register_matpower b e r) exps r ;
      do r2 <- (if chol then register_cholesky b r1 else Ok r1) ;
      if cholinv then register_cholesky_inverse b r2 else Ok r2) = Ok r'.
Proof.
  intros [Hs Hu].
  assert (P : forall es r, incl es exps -> exists r', foldM (fun e r => register_matpower b e r) es r = Ok r').
  { induction es as [|e es IH]; intros r0 Hi; [eexists; reflexivity|]. cbn [foldM].
    assert (He : In e exps) by (apply Hi; now left).
    assert (Q : exists r', register_matpower b e r0 = Ok r').
    { destruct b as [f d| |kl fl dl kr fr dr|fl dl fr dr]; cbn [register_matpower].
      - apply f_pow_ok. discriminate.
      - eauto.
      - destruct (f_pow_ok kl fl e dl r0) as [r1 E1].
        { intros ->. apply Hu; [|exact He]. exists SUA, fl, dl, kr, fr, dr. auto. }
        rewrite E1. cbn [bind]. apply f_pow_ok.
        intros ->. apply Hu; [|exact He]. exists kl, fl, dl, SUA, fr, dr. auto.
      - assert (E : (e == -1)%Q) by (apply Hs; [now exists fl, dl, fr, dr|exact He]).
        apply Qeq_bool_iff in E. rewrite E. eauto. }
    destruct Q as [r1 E1]. rewrite E1. cbn [bind]. apply IH. intros x Hx. apply Hi. now right. }
  destruct (P exps r (incl_refl _)) as [r1 E1]. rewrite E1. cbn [bind]. clear P E1.
  assert (K2 : exists r2, (if chol then register_cholesky b r1 else Ok r1) = Ok r2).
  { destruct chol; [|eauto]. destruct b as [f d| |kl fl dl kr fr dr|fl dl fr dr]; cbn; eauto.
    destruct kl, kr; cbn; eauto; exfalso;
      (destruct Hu as [K _]; [repeat eexists; auto|discriminate]). }
  destruct K2 as [r2 E2]. rewrite E2. cbn [bind].
  destruct cholinv; [|eauto]. destruct b as [f d| |kl fl dl kr fr dr|fl dl fr dr]; cbn; eauto.
  destruct kl, kr; cbn; eauto; exfalso;
    (destruct Hu as (_ & K & _); [repeat eexists; auto|discriminate]).
Qed.

Lemma registration_succeeds exps chol cholinv bs :
  (exists r, register_matrix_functions exps chol cholinv bs = Ok r) <-> (forall b, In b bs -> may_register exps chol cholinv b).
Proof.
  split.
  - intros [r H] b Hb. split.
    + intros Hs. now apply (series_powers _ _ _ _ _ b 1%Q H Hb).
    + exact (sua_exps _ _ _ _ _ _ H Hb).
  - unfold register_matrix_functions. generalize no_regs. induction bs as [|b bs IH]; intros r0 H; [eexists; reflexivity|].
    cbn [foldM]. destruct (may_register_ok _ _ _ _ r0 (H b (or_introl eq_refl))) as [r1 E]. rewrite E. cbn [bind].
    apply IH. intros b' Hb'. apply H. now right.
Qed.
