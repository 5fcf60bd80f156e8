(** mps::simplify with one state *)
From Coq Require Import Reals Lra Bool List Arith ZArith Lia Ring.
From Verif Require Import Scalar ScalarFacts RScal Tensor TensorFacts Spec MpsModel MpsFacts StateFacts StateFacts2 EnvFacts ExpectedFacts MpoSpec CanonSpec CanonModel
  TruncFacts SplitFacts CanonFacts CanonSweep CanonNorm CanonProps CanonTwo SweepModel SweepSpec SweepFacts FormModel FormSpec LFormFacts LFormValue
  SimplifySpec SimplifyModel EckartYoung SimplifyFacts SimplifyStep SimplifyPair SimplifyDouble SimplifySweep SimplifyLoop SimplifyManyModel ManyFacts ManyEnv ManySweep ManyPair ManyLoop.
Import ListNotations.
Local Open Scope K_scope.

Section One.
Context {RS : RScal}.
Add Ring Kring : k_ring.
Variable svd : tensor -> tensor * list R * tensor.
Hypothesis Hsvd : svd_contract svd.
Hypothesis Hecon : svd_economic svd.
Variables (Q : mps) (ds : list nat).
Hypothesis HQ : open_mps Q.
Hypothesis HQd : pdims Q = ds.
Notation ws := [1].
Notation bras := [Q].
Notation D2 P := (dist2 ds (combo ws bras) (amp P)).
Notation fits := (fits ds).
Notation envs := (envs bras).
Notation mswept := (mswept ws bras ds).

Lemma Hg1 : good_bras ws bras ds.
Proof. split; [discriminate|]. split; [reflexivity|]. intros b [<-|[]]. split; assumption. Qed.
Notation Hg := Hg1.

(** ** normalize_this is set_canonical without truncation *)
Lemma wtt_none s m : length s = m -> where_to_truncate 2 s MPS_DEFAULT_TOLERANCE (Z.of_nat m) = length s.
Proof.
  intros E. unfold where_to_truncate, MPS_DEFAULT_TOLERANCE. rewrite <- E.
  replace (Rltb (-4) 0) with true by (unfold Rltb; destruct (Rlt_dec (-4) 0); [reflexivity|lra]).
  replace (Rleb 1 2) with true by (unfold Rleb; destruct (Rle_dec 1 2); [reflexivity|lra]).
  destruct (Z.leb_spec (Z.of_nat (length s)) 0); cbn [orb]; [reflexivity|]. destruct (Z.ltb_spec (Z.of_nat (length s)) (Z.of_nat (length s))); [lia|]. apply Nat2Z.id.
Qed.

Lemma normalize_site P k k' T d P1 : moved d (length P) k k' -> (k < length P)%nat -> wf T -> (exists a i b, dims T = [a; i; b] /\ (0 < a)%nat /\ (0 < i)%nat /\ (0 < b)%nat) ->
  set_canonical svd 2 P (Z.of_nat k) T (sgn d) true = Ok P1 -> site P1 k = normalize_this svd T (sgn d).
Proof.
  intros Hm Hk Hw (a & i & b & Hd & Ha & Hi & Hb). unfold set_canonical. rewrite Nat2Z.id. destruct (_ && _)%bool; [|discriminate].
  assert (Hlen : length (data T) = (a * i * b)%nat) by (unfold wf in Hw; rewrite Hw, Hd; unfold nprod; cbn; ring).
  assert (Hne : is_empty T = false).
  { destruct (is_empty T) eqn:E; [|reflexivity]. unfold is_empty in E. destruct (data T); [|discriminate]. cbn in Hlen. pose proof (Nat.mul_pos_pos (a * i)%nat b ltac:(apply Nat.mul_pos_pos; assumption) Hb). lia. }
  assert (Hai : (0 < a * i)%nat) by (apply Nat.mul_pos_pos; assumption). assert (Hib : (0 < i * b)%nat) by (apply Nat.mul_pos_pos; assumption).
  unfold normalize_this, split. rewrite Hne. destruct d; cbn [sgn Z.ltb Z.compare moved] in *.
  - destruct Hm as (-> & Hk'). destruct (Nat.eqb_spec (k + 1) (length P)) as [|_]; [lia|].
    unfold dim. rewrite Hd. cbn [length nth Nat.sub]. rewrite Hlen, Nat.div_mul by lia.
    pose proof (Hecon (a * i)%nat b (reshape T [(a * i)%nat; b])) as HS. destruct (svd (reshape T [(a * i)%nat; b])) as [[U s] V].
    assert (Hls : length s = Nat.min (a * i)%nat b) by (apply HS; [split; [reflexivity|apply wf_reshape; [exact Hw|rewrite Hd; unfold nprod; cbn; ring]]|exact Hai|exact Hb]).
    rewrite (wtt_none s (Nat.min (a * i)%nat b)) by exact Hls. rewrite Nat.eqb_refl. cbn [bind]. intros H. apply Ok_inj' in H. subst P1.
    rewrite site_replace_neq by lia. rewrite site_replace_eq by exact Hk. rewrite Hls. reflexivity.
  - subst k. destruct (Nat.eqb_spec (S k') 0) as [|_]; [lia|].
    unfold dim. rewrite Hd. cbn [length nth Nat.sub]. replace (length (data T)) with (i * b * a)%nat by (rewrite Hlen; ring). rewrite Nat.div_mul by lia.
    pose proof (Hecon a (i * b)%nat (reshape T [a; (i * b)%nat])) as HS. destruct (svd (reshape T [a; (i * b)%nat])) as [[V s] U].
    assert (Hls : length s = Nat.min a (i * b)%nat) by (apply HS; [split; [reflexivity|apply wf_reshape; [exact Hw|rewrite Hd; unfold nprod; cbn; ring]]|exact Ha|exact Hib]).
    rewrite (wtt_none s (Nat.min a (i * b)%nat)) by exact Hls. rewrite Nat.eqb_refl. cbn [bind]. intros H. apply Ok_inj' in H. subst P1.
    rewrite site_replace_neq by lia. rewrite site_replace_eq by exact Hk. rewrite Hls. reflexivity.
Qed.

(** ** The matrices *)
Definition Mrows (A : mps) (r i : nat) : tensor := nth r (empty :: A) empty.

Lemma Mrows_S A r i : Mrows A (S r) i = site A r.
Proof. reflexivity. Qed.

Lemma Mrows_update A k Pk (d : bool) M : (k < length A)%nat ->
  M = prop_matrix (Mrows A (if d then k else S (S k)) 0) (sgn d) Pk (site Q k) None ->
  updated bras d k Pk (Mrows A) (Mrows (replace_nth k M A)).
Proof.
  intros Hk -> r i Hi. assert (i = 0%nat) as -> by (cbn in Hi; lia). destruct (Nat.eqb_spec r (S k)) as [->|Hn].
  - rewrite Mrows_S, site_replace_eq by exact Hk. reflexivity.
  - destruct r as [|r]; [reflexivity|]. rewrite !Mrows_S, site_replace_neq by lia. reflexivity.
Qed.

Lemma local_one k P M : fits P -> (k < length P)%nat -> envs k P M ->
  let T := next_projector (M k 0%nat) (M (S (S k)) 0%nat) (site Q k) in wf T /\ dims T = dims (site P k) /\ repr1 ws bras k P (tconj T).
Proof.
  intros (Ho & Hd) Hk (H1 & H2) T. destruct (site_term ws bras ds Hg k P 0 (M k 0%nat) (M (S (S k)) 0%nat) Ho Hd Hk) as (T1 & T2 & T3); [cbn; lia|apply H1; cbn; lia|apply H2; cbn; lia|].
  split; [exact T1|]. split; [exact T2|]. apply (combine1 ws bras ds k P T (fun _ => T) Ho Hd Hk).
  - intros x _. cbn [length sum nth]. ring.
  - intros i Hi. assert (i = 0%nat) as -> by (cbn in Hi; lia). exact T3.
Qed.

Lemma both_empty k P M : fits P -> (k < length P)%nat -> (2 <= length P)%nat -> envs k P M -> is_empty (M (S (S k)) 0%nat) && is_empty (M k 0%nat) = false.
Proof.
  intros Hf Hk HL (H1 & H2). apply andb_false_iff.
  pose proof (fits_len ws bras ds Hg P 0 Hf ltac:(cbn; lia)) as Hl. unfold LFormFacts.bra in Hl. cbn [nth] in Hl.
  destruct (Nat.eq_dec k 0) as [->|Hk0].
  - left. destruct (is_empty (M 2%nat 0%nat)) eqn:E; [|reflexivity]. destruct (H2 0%nat 1%nat) as (_ & Hi & _); [cbn; lia|lia|]. apply Hi in E.
    apply (f_equal (@length tensor)) in E. unfold LFormFacts.bra in E. cbn [nth] in E. rewrite skipn_length in E. cbn in E. lia.
  - right. destruct (is_empty (M k 0%nat)) eqn:E; [|reflexivity]. destruct (H1 0%nat k) as (_ & Hi & _); [cbn; lia|lia|]. apply Hi in E.
    apply (f_equal (@length tensor)) in E. unfold LFormFacts.bra in E. cbn [nth] in E. rewrite firstn_length_le in E; cbn in E; lia.
Qed.

(** One site, without its tensor: T is the local tensor *)
Lemma simple_step_eq P A B t0 k (d : bool) : (k < length P)%nat -> length A = length P -> (forall j, is_empty (site B j) = true) ->
  is_empty (Mrows A (S (S k)) 0) && is_empty (Mrows A k 0) = false ->
  let T := next_projector (Mrows A k 0) (Mrows A (S (S k)) 0) (site Q k) in
  let Pk := if Nat.eqb k (last_of d (length P)) then T else normalize_this svd T (sgn d) in
  let M := prop_matrix (Mrows A (if d then k else S (S k)) 0) (sgn d) Pk (site Q k) None in
  simple_step svd false Q (sgn d) (Ok (P, A, B, Mrows A (if d then k else S (S k)) 0, empty, t0)) k = Ok (replace_nth k Pk P, replace_nth k M A, B, M, empty, Pk).
Proof.
  intros Hk Hl HB Hemp T Pk M. unfold simple_step. cbn [bind]. destruct d; cbn [sgn Z.ltb Z.compare last_of] in *.
  - assert (E1 : (if Nat.ltb k (length P - 1) then site A (k + 1) else empty) = Mrows A (S (S k)) 0).
    { rewrite Mrows_S. destruct (Nat.ltb_spec k (length P - 1)); [f_equal; lia|]. unfold site. rewrite nth_overflow by lia. reflexivity. }
    assert (E2 : is_empty (if Nat.ltb k (length P - 1) then site B (k + 1) else empty) = true) by (destruct (Nat.ltb k (length P - 1)); [apply HB|reflexivity]).
    rewrite E1. unfold build_next_projector. rewrite Hemp, E2. change (is_empty empty) with true. cbn [orb negb bind]. fold T.
    assert (E3 : (if Nat.ltb k (length P - 1) then normalize_this svd T 1 else T) = Pk).
    { unfold Pk. destruct (Nat.ltb_spec k (length P - 1)), (Nat.eqb_spec k (length P - 1)); (reflexivity || lia). }
    rewrite E3. reflexivity.
  - assert (E1 : (if Nat.ltb 0 k then site A (k - 1) else empty) = Mrows A k 0).
    { destruct k as [|k]; [reflexivity|]. rewrite Mrows_S. cbn [Nat.ltb Nat.leb]. f_equal. lia. }
    assert (E2 : is_empty (if Nat.ltb 0 k then site B (k - 1) else empty) = true) by (destruct (Nat.ltb 0 k); [apply HB|reflexivity]).
    rewrite E1. unfold build_next_projector. rewrite Hemp, E2. change (is_empty empty) with true. cbn [orb negb bind]. fold T.
    assert (E3 : (if Nat.ltb 0 k then normalize_this svd T (-1) else T) = Pk).
    { unfold Pk. destruct k; reflexivity. }
    rewrite E3. reflexivity.
Qed.

(** ** A sweep.  [Pv] is a state with the same environments: the tensor at the next site is kept in front of it. *)
Lemma one_sweep_ok (d : bool) n : forall k P Pv A B t0, fits Pv -> length P = length Pv -> (2 <= length P)%nat -> (forall j, j <> k -> site P j = site Pv j) ->
  remaining d (length P) k n -> length A = length P -> (forall j, is_empty (site B j) = true) -> envs k Pv (Mrows A) -> behind d k Pv ->
  exists P' A', fold_left (simple_step svd false Q (sgn d)) (path d k n) (Ok (P, A, B, Mrows A (if d then k else S (S k)) 0, empty, t0)) =
      Ok (P', A', B, site A' (last_of d (length P)), empty, site P' (last_of d (length P))) /\
    length A' = length P /\ mswept d Pv P' (Mrows A') /\
    (forall j, (dim (site P' j) 0 <= dim (site Pv j) 0)%nat) /\
    (behind (negb d) k Pv -> (D2 P' <= D2 Pv)%R) /\
    (overlap ws bras Pv <> 0 -> overlap ws bras P' <> 0).
Proof.
  induction n as [|n IH]; intros k P Pv A B t0 Hf Hl HL Hs Hr HlA HB HE Hb;
    assert (Hkl : (k < length P)%nat) by (destruct d; cbn in *; lia);
    pose proof (both_empty k Pv (Mrows A) Hf ltac:(lia) ltac:(lia) HE) as Hemp;
    destruct (local_one k Pv (Mrows A) Hf ltac:(lia) HE) as (T1 & T2 & T3);
    pose proof (simple_step_eq P A B t0 k d Hkl HlA HB Hemp) as Hstep; cbv zeta in Hstep;
    set (T := next_projector (Mrows A k 0) (Mrows A (S (S k)) 0) (site Q k)) in *;
    pose proof Hf as (Ho & Hd).
  - assert (Hk : k = last_of d (length P)) by (destruct d; cbn in *; lia).
    destruct (center_ok ws bras ds Hg k Pv (tconj T) Ho Hd ltac:(lia) (wf_tconj _ T1) T2 T3) as (O1 & D1 & Hop & Hnz & Hmono).
    rewrite tconj_tconj in *.
    assert (EP : replace_nth k T P = replace_nth k T Pv).
    { apply (nth_ext _ _ empty empty); [rewrite !length_replace_nth; exact Hl|]. intros j _. change (site (replace_nth k T P) j = site (replace_nth k T Pv) j).
      destruct (Nat.eq_dec j k) as [->|Hj]; [rewrite !site_replace_eq by lia; reflexivity|rewrite !site_replace_neq by exact Hj; apply Hs; exact Hj]. }
    rewrite <- Hk, Nat.eqb_refl, EP in Hstep. set (P1 := replace_nth k T Pv) in *.
    assert (Ep : path d k 0 = [k]) by (destruct d; cbn in *; [reflexivity|]; f_equal; lia). rewrite Ep. cbn [fold_left]. rewrite Hstep.
    set (M1 := prop_matrix (Mrows A (if d then k else S (S k)) 0) (sgn d) T (site Q k) None) in *.
    exists P1, (replace_nth k M1 A). rewrite <- Hk. assert (E1 : site P1 k = T) by (apply site_replace_eq; lia). rewrite E1.
    assert (E2 : site (replace_nth k M1 A) k = M1) by (apply site_replace_eq; lia). rewrite E2. split; [reflexivity|]. split; [rewrite length_replace_nth; exact HlA|].
    assert (Hlen1 : length P1 = length Pv) by apply length_replace_nth.
    assert (Hs1 : forall j, j <> k -> site P1 j = site Pv j) by (intros j Hj; apply site_replace_neq; exact Hj).
    split; [|split; [|split; [|intros Hne; apply Hnz; exact Hne]]].
    + assert (U1 : updated bras d k (site P1 k) (Mrows A) (Mrows (replace_nth k M1 A))) by (apply Mrows_update; [lia|rewrite E1; reflexivity]).
      rewrite Hl in Hk.
      destruct (envs_end ws bras ds Hg d Pv P1 (Mrows A) (Mrows (replace_nth k M1 A))) as (E3 & E4); try rewrite <- Hk; try assumption; [split; assumption|lia|].
      unfold mswept. rewrite <- Hk in *. split; [split; assumption|]. split; [exact Hlen1|]. split; [|split; [exact Hop|split; [exact E3|exact E4]]].
      rewrite Hk, <- Hlen1. apply behind_last. rewrite Hlen1, <- Hk. destruct d; cbn [behind] in *; intros j Hj; rewrite Hs1 by lia; apply Hb; lia.
    + intros j. destruct (Nat.eq_dec j k) as [->|Hj]; [|rewrite Hs1 by exact Hj; lia]. rewrite E1. unfold dim. rewrite T2. lia.
    + intros Hb2. apply Hmono. apply (behind_both d). split; assumption.
  - set (k' := if d then S k else (k - 1)%nat).
    assert (Hmv : moved d (length Pv) k k') by (unfold k'; destruct d; cbn in *; lia).
    assert (Hz : nz ws bras (eff 2 true) Pv) by (left; cbn; lra).
    destruct (single_core svd 2 Hsvd ws bras ds Hg true d k k' Pv (tconj T) Ho Hd ltac:(lia) (wf_tconj _ T1) T2 T3 Hmv Hz) as (P1 & E & Hst & _ & Hbd & Hmono & Hke).
    rewrite tconj_tconj in E. assert (Hex : exact 2 true) by (right; cbn; lra).
    pose proof Hst as (O1 & D1 & Hk1 & Hl1 & _ & Hoth & Hdim1).
    destruct (site_dims Pv k Ho ltac:(lia)) as (a & i & b & Hsd & Hws & Ha & Hi & Hbb).
    assert (ES : site P1 k = normalize_this svd T (sgn d)).
    { apply (normalize_site Pv k k' T d P1 Hmv); [lia|exact T1| |exact E]. exists a, i, b. rewrite T2. auto. }
    rewrite (path_S d (length P) k n Hr). fold k'. cbn [fold_left].
    destruct (Nat.eqb_spec k (last_of d (length P))) as [E0|_]; [exfalso; destruct d; cbn in *; lia|]. rewrite <- ES in Hstep. rewrite Hstep.
    set (M1 := prop_matrix (Mrows A (if d then k else S (S k)) 0) (sgn d) (site P1 k) (site Q k) None) in *.
    assert (U1 : updated bras d k (site P1 k) (Mrows A) (Mrows (replace_nth k M1 A))) by (apply Mrows_update; [lia|reflexivity]).
    assert (Hf1 : fits P1) by (split; assumption).
    pose proof (envs_step ws bras ds Hg d k k' Pv P1 (Mrows A) _ Hf1 Hl1 Hmv ltac:(lia) Hoth HE U1) as HE1.
    pose proof (cstepped_behind ds d k k' Pv P1 Hmv Hst Hb) as Hb1.
    assert (EM : M1 = Mrows (replace_nth k M1 A) (if d then k' else S (S k')) 0).
    { unfold k'. destruct d; cbn in Hr; [|replace (S (S (k - 1))) with (S k) by lia]; rewrite Mrows_S, site_replace_eq by lia; reflexivity. }
    destruct (IH k' (replace_nth k (site P1 k) P) P1 (replace_nth k M1 A) B (site P1 k) Hf1) as (P' & A' & E' & HlA' & Hsw & Hdim & Hm' & Hke').
    + rewrite length_replace_nth. lia.
    + rewrite length_replace_nth. lia.
    + intros j Hj. destruct (Nat.eq_dec j k) as [->|Hjk]; [apply site_replace_eq; lia|]. rewrite site_replace_neq by exact Hjk. rewrite Hs by exact Hjk. symmetry. apply Hoth; assumption.
    + rewrite length_replace_nth. unfold k'. destruct d; cbn in *; lia.
    + rewrite !length_replace_nth. exact HlA.
    + exact HB.
    + exact HE1.
    + exact Hb1.
    + rewrite length_replace_nth in *. rewrite <- EM in E'. exists P', A'. split; [exact E'|]. split; [exact HlA'|]. split; [unfold mswept in *; rewrite Hl1 in *; exact Hsw|]. split; [|split].
      * intros j. eapply Nat.le_trans; [apply Hdim|]. destruct (Nat.eq_dec j (S (Nat.min k k'))) as [->|Hj]; [exact Hbd|apply Hdim1; exact Hj].
      * intros Hb2. eapply Rle_trans; [apply Hm'; apply (cstepped_front ds d k k' Pv P1); assumption|]. apply Hmono; [exact Hex|]. apply (behind_both d). split; assumption.
      * intros Hne. apply Hke', Hke; assumption.
Qed.

(** ** The loop *)
Notation W := (W ws bras ds).
Notation mdone := (mdone ws bras ds).

Lemma simple_sweep_ok (d : bool) z P A B : (0 <? z)%Z = d -> fits P -> (2 <= length P)%nat -> length A = length P -> (forall j, is_empty (site B j) = true) ->
  envs (last_of (negb d) (length P)) P (Mrows A) ->
  exists P' A', simple_sweep svd false Q z P A B = Ok (P', A', B, site A' (last_of d (length P)), empty, site P' (last_of d (length P))) /\
    length A' = length P /\ mswept d P P' (Mrows A') /\ one_rel P P' /\
    (canonical_at (last_of (negb d) (length P)) P -> (D2 P' <= D2 P)%R) /\
    (overlap ws bras P <> 0 -> overlap ws bras P' <> 0).
Proof.
  intros Hd Hf HL HlA HB HE.
  destruct (one_sweep_ok d (length P - 1) (last_of (negb d) (length P)) P P A B empty Hf eq_refl HL) as (P' & A' & E & H1 & H2 & H3 & H4 & H5);
    [reflexivity|destruct d; cbn; lia|exact HlA|exact HB|exact HE|destruct d; cbn; intros; lia|].
  exists P', A'. split; [|repeat (split; [assumption|]); split; [|exact H5]; intros Hc; apply H4; apply (behind_both d) in Hc; apply Hc].
  unfold simple_sweep. rewrite Hd, <- E.
  assert (EM : Mrows A (if d then last_of (negb d) (length P) else S (S (last_of (negb d) (length P)))) 0 = empty).
  { destruct d; cbn [negb last_of]; [reflexivity|]. rewrite Mrows_S. unfold site. apply nth_overflow. lia. }
  rewrite EM. destruct d; cbn [sgn path negb last_of]; replace (S (length P - 1)) with (length P) by lia; reflexivity.
Qed.

Lemma simple_loop_S tolerance normQ2 normalize n P A B sense err : simple_loop svd tolerance false Q normQ2 normalize (S n) P A B sense err =
      bind (simple_sweep svd false Q sense P A B) (fun '(P, A, B, M, N, Pk) =>
        let scp := kre (elem0 M) in
        let normP2 := kre (tensor_scprod Pk Pk) in
        let olderr := err in
        if Req_EM_T (normQ2 * normP2) 0 then Abort else
        let err := (1 - scp / sqrt (normQ2 * normP2))%R in
        if obc_stop tolerance olderr err then
          if normalize then
            let last := (if (0 <? sense)%Z then length P - 1 else 0)%nat in
            Ok (replace_nth last (tscale (rinj (/ sqrt normP2)%R) Pk) P, (- sense)%Z, err)
          else Ok (P, sense, err)
        else simple_loop svd tolerance false Q normQ2 normalize n P A B (- sense)%Z err).
Proof. reflexivity. Qed.

Definition angle (n : R) : R := (1 - n / sqrt (W * n))%R.

Lemma simple_loop_ok tolerance n : W <> 0%R -> forall d z P A B err0, z <> 0%Z -> (0 <? z)%Z = d -> fits P -> (2 <= length P)%nat -> length A = length P ->
  (forall j, is_empty (site B j) = true) -> envs (last_of (negb d) (length P)) P (Mrows A) -> overlap ws bras P <> 0 ->
  exists P' nn z' (conv : bool), (z' = z \/ z' = - z)%Z /\ let E := last_of (0 <? z')%Z (length P) in
    simple_loop svd tolerance false Q W false (S n) P A B z err0 = Ok (P', (if conv then z' else - z')%Z, angle nn) /\
    simple_loop svd tolerance false Q W true (S n) P A B z err0 =
      (if conv then Ok (replace_nth E (tscale (rinj (/ sqrt nn)%R) (site P' E)) P', (- z')%Z, angle nn) else Ok (P', (- z')%Z, angle nn)) /\
    mdone (0 <? z')%Z (length P) P' nn /\ (n = 0%nat -> z' = z /\ conv = obc_stop tolerance err0 (angle nn)) /\ overlap ws bras P' <> 0 /\ one_rel P P' /\
    (canonical_at (last_of (negb d) (length P)) P -> (D2 P' <= D2 P)%R).
Proof.
  intros HW. induction n as [|n IH]; intros d z P A B err0 Hz Hd Hf HL HlA HB HE Hn;
    destruct (simple_sweep_ok d z P A B Hd Hf HL HlA HB HE) as (P1 & A1 & E & HlA1 & Hsw & HR1 & Hmono & Hke);
    pose proof Hsw as (Hf1 & Hl1 & Hc1 & Hop1 & HE1 & Hin);
    set (nn := frob2 (site P1 (last_of d (length P))));
    assert (Hdone : mdone d (length P) P1 nn) by (repeat split; auto; apply Hf1 || apply Hc1);
    destruct (mdone_facts ws bras ds Hg d (length P) P1 nn ltac:(lia) Hdone) as (_ & Hov & _ & _);
    (assert (Hscp : elem0 (site A1 (last_of d (length P))) = rinj nn) by
      (destruct (Hin 0%nat ltac:(cbn; lia)) as (_ & Hi); rewrite Mrows_S in Hi; rewrite Hi; rewrite <- (rinj_conj nn), <- Hov; unfold overlap, LFormFacts.bra; destruct Hf1 as (_ & ->);
       cbn [length sum nth]; rewrite kconj_add, kconj_0, kconj_mul, kconj_inv, inner_conj; ring));
    (assert (Hnn : (nn <> 0)%R) by (intros E0; apply (Hke Hn); rewrite Hov, E0; apply rinj_0));
    rewrite !simple_loop_S, !E; cbn [bind]; cbv zeta; rewrite Hscp, tensor_scprod_self, !kre_rinj; fold nn;
    (destruct (Req_EM_T (W * nn) 0) as [E0|_]; [exfalso; destruct (Rmult_integral _ _ E0); contradiction|]);
    fold (angle nn);
    replace (if (0 <? z)%Z then (length P1 - 1)%nat else 0%nat) with (last_of d (length P)) by (rewrite Hd, Hl1; destruct d; reflexivity);
    (destruct (obc_stop tolerance err0 (angle nn)) eqn:Est;
     [exists P1, nn, z, true; rewrite Hd; split; [left; reflexivity|]; cbv zeta; repeat (split; [reflexivity || assumption || (apply Hke; exact Hn) || (intros _; auto)|]); exact Hmono|]).
  - exists P1, nn, z, false. rewrite Hd. split; [left; reflexivity|]. cbv zeta. cbn [simple_loop]. repeat (split; [reflexivity || assumption || (apply Hke; exact Hn) || (intros _; auto)|]). exact Hmono.
  - destruct (IH (negb d) (- z)%Z P1 A1 B (angle nn)) as (P' & n' & z' & conv & Hz' & E1 & E2 & H1 & _ & H2 & H3 & H4);
      [lia|destruct d; destruct (Z.ltb_spec 0 z), (Z.ltb_spec 0 (- z)); cbn; (congruence || lia)|exact Hf1|lia|lia|exact HB|rewrite negb_involutive, Hl1; exact HE1|apply Hke; exact Hn|].
    rewrite negb_involutive, Hl1 in *. exists P', n', z', conv. split; [lia|]. cbv zeta. split; [exact E1|]. split; [exact E2|].
    split; [exact H1|]. split; [discriminate|]. split; [exact H2|]. split; [intros j; eapply Nat.le_trans; [apply H3|apply HR1]|].
    intros Hc. eapply Rle_trans; [apply H4; exact Hc1|apply Hmono; assumption].
Qed.

(** ** The first environments *)
Lemma is_empty_Mrows L r i : is_empty (Mrows (repeat empty L) r i) = true.
Proof.
  unfold Mrows. destruct r as [|r]; [reflexivity|]. cbn [nth]. destruct (Nat.lt_ge_cases r L) as [H|H]; [rewrite nth_repeat; reflexivity|].
  rewrite nth_overflow by (rewrite repeat_length; exact H). reflexivity.
Qed.

Lemma simple_init_ok P z : fits P -> (2 <= length P)%nat ->
  length (simple_init P Q z) = length P /\
  (if (0 <? z)%Z then renvs bras 0 P (Mrows (simple_init P Q z)) else lenvs bras (length P) P (Mrows (simple_init P Q z)) /\ renvs bras (length P) P (Mrows (simple_init P Q z))).
Proof.
  intros Hf HL. unfold simple_init. destruct (0 <? z)%Z.
  - destruct (init_right ws bras ds Hg _ Mrows (fun A k => replace_nth k (prop_matrix (site A (k + 1)) (-1) (site P k) (site Q k) None) A) (fun A => length A = length P) P)
      with (j := length P) (s := repeat (@empty rs_scalar) (length P)) as (H1 & H2 & H3).
    + intros A k HA Hk. split; [|rewrite length_replace_nth; exact HA]. apply Mrows_update; [lia|]. cbv iota. rewrite Mrows_S. replace (k + 1)%nat with (S k) by lia. reflexivity.
    + exact Hf.
    + lia.
    + apply repeat_length.
    + intros i _. apply is_empty_Mrows.
    + apply (renvs_nil ws bras ds Hg); [exact Hf|intros i _; apply is_empty_Mrows].
    + split; assumption.
  - destruct (init_left ws bras ds Hg _ Mrows (fun A k => replace_nth k (prop_matrix (if Nat.eqb k 0 then empty else site A (k - 1)) 1 (site P k) (site Q k) None) A) (fun A => length A = length P) P)
      with (j := length P) (s := repeat (@empty rs_scalar) (length P)) as (H1 & H2 & H3).
    + intros A k HA Hk. split; [|rewrite length_replace_nth; exact HA]. apply Mrows_update; [lia|]. cbv iota. f_equal.
      destruct k as [|k]; [reflexivity|]. rewrite Mrows_S. cbn [Nat.eqb]. f_equal. lia.
    + exact Hf.
    + lia.
    + apply repeat_length.
    + intros i _. apply is_empty_Mrows.
    + rewrite Nat.sub_diag. apply lenvs_nil. intros i _. apply is_empty_Mrows.
    + rewrite Nat.sub_diag in *. split; [exact H2|]. split; [exact H1|]. apply (renvs_nil ws bras ds Hg); assumption.
Qed.

Lemma simple_init_envs P z : fits P -> (2 <= length P)%nat -> envs (last_of (negb (0 <? z)%Z) (length P)) P (Mrows (simple_init P Q z)).
Proof.
  intros Hf HL. destruct (simple_init_ok P z Hf HL) as (_ & H). destruct (0 <? z)%Z; cbn [negb last_of].
  - split; [apply lenvs_nil; reflexivity|apply (renvs_weaken bras 0); [lia|exact H]].
  - destruct H as (H1 & H2). split; [apply (lenvs_weaken bras (length P)); [lia|exact H1]|]. replace (S (length P - 1)) with (length P) by lia. exact H2.
Qed.

Lemma norm_squared_ok P : open_mps P -> norm_squared P = Ok (weight (pdims P) (amp P)).
Proof.
  intros (Hn & HL). unfold norm_squared. rewrite norm2_squared_correct by (split; [exact Hn|exists 1%nat; split; [lia|exact HL]]). cbn [bind]. f_equal.
  change (kre (inner (pdims P) (amp P) (amp P))) with (weight (pdims P) (amp P)). rewrite Rabs_pos_eq by apply weight_nonneg. apply sqrt_sqrt, weight_nonneg.
Qed.

Lemma W_one : W = weight ds (amp Q).
Proof. unfold SimplifyLoop.W, weight, inner. f_equal. apply sumcfg_ext. intros is _. unfold combo. cbn [length sum nth]. f_equal; [f_equal; ring|ring]. Qed.

Lemma simplify_one_ok tolerance P sense sweeps : fits P -> (2 <= length P)%nat -> sense <> 0%Z -> sweeps <> 0%nat -> overlap ws bras P <> 0 ->
  exists P' nn z' (conv : bool), (z' = sense \/ z' = - sense)%Z /\ let E := last_of (0 <? z')%Z (length P) in
    simplify_one svd tolerance P Q sense false sweeps false = Ok (P', (if conv then z' else - z')%Z, angle nn) /\
    simplify_one svd tolerance P Q sense false sweeps true =
      (if conv then Ok (replace_nth E (tscale (rinj (/ sqrt nn)%R) (site P' E)) P', (- z')%Z, angle nn) else Ok (P', (- z')%Z, angle nn)) /\
    mdone (0 <? z')%Z (length P) P' nn /\ (sweeps = 1%nat -> z' = sense /\ conv = obc_stop tolerance 1 (angle nn)) /\ overlap ws bras P' <> 0 /\ one_rel P P' /\
    (canonical_at (last_of (negb (0 <? sense)%Z) (length P)) P -> (D2 P' <= D2 P)%R).
Proof.
  intros Hf HL Hs Hsw Hn. unfold simplify_one. rewrite norm_squared_ok by exact HQ. rewrite HQd, <- W_one. cbn [bind].
  pose proof (fits_length ds P Hf) as Hl. assert (HlQ : length Q = length P) by (rewrite Hl, <- HQd; symmetry; apply length_pdims).
  destruct (Nat.eqb_spec sweeps 0) as [|_]; [contradiction|]. destruct (Nat.eqb_spec (length Q) 1) as [|_]; [lia|]. destruct (Z.eqb_spec sense 0) as [|_]; [contradiction|].
  destruct sweeps as [|n]; [congruence|]. cbv zeta. cbv iota.
  destruct (simple_loop_ok tolerance n) with (d := (0 <? sense)%Z) (z := sense) (P := P) (A := simple_init P Q sense) (B := repeat (@empty rs_scalar) (length P)) (err0 := 1%R)
    as (P' & nn & z' & conv & H1 & H2 & H3 & H4 & H5 & H6); try assumption; try reflexivity.
  - intros E0. apply Hn. rewrite overlap_combo with (ds := ds) by apply Hf. unfold inner. apply sumcfg_zero. intros is Hi.
    rewrite (weight_zero ds _ E0 is Hi), kconj_0. ring.
  - apply simple_init_ok; assumption.
  - intros j. rewrite <- (Mrows_S _ j 0). apply is_empty_Mrows.
  - apply simple_init_envs; assumption.
  - exists P', nn, z', conv. split; [exact H1|]. cbv zeta in *. repeat (split; [assumption|]). split; [|exact H6]. intros E. apply H5. lia.
Qed.

End One.

(** ** periodicbc = true: the second environments are never empty *)
Section Periodic.
Context {RS : RScal}.
Lemma simplify_one_periodic svd tolerance P Q sense sweeps normalize : open_mps P -> (2 <= length P)%nat -> sweeps <> 0%nat ->
  simplify_one svd tolerance P Q sense true sweeps normalize = Abort.
Proof.
  intros HP HL Hsw. unfold simplify_one. destruct (norm_squared Q) as [normQ2|]; [|reflexivity]. cbn [bind].
  destruct (Nat.eqb_spec sweeps 0) as [|_]; [contradiction|]. destruct (Nat.eqb (length Q) 1); [reflexivity|]. destruct (sense =? 0)%Z eqn:Hz; [reflexivity|].
  destruct sweeps as [|n]; [congruence|]. cbv zeta iota. set (A := simple_init P Q sense). set (B := simple_init P P sense).
  assert (HB : is_empty (site B (if (0 <? sense)%Z then 1 else length P - 2)%nat) = false).
  { pose proof (simple_init_ok P (pdims P) HP eq_refl P sense (conj HP eq_refl) HL) as (_ & H). fold B in H. destruct (0 <? sense)%Z.
    - destruct (H 0%nat 1%nat) as (_ & Hi & _); [cbn; lia|lia|]. rewrite Mrows_S in Hi. destruct (is_empty (site B 1)); [|reflexivity].
      exfalso. assert (E : skipn 1 (LFormFacts.bra [P] 0) = []) by (apply Hi; reflexivity). apply (f_equal (@length tensor)) in E.
      unfold LFormFacts.bra in E. cbn [nth] in E. rewrite skipn_length in E. cbn in E. lia.
    - destruct H as (H & _). destruct (H 0%nat (length P - 1)%nat) as (_ & Hi & _); [cbn; lia|lia|].
      replace (length P - 1)%nat with (S (length P - 2)) in Hi by lia. rewrite Mrows_S in Hi. destruct (is_empty (site B (length P - 2))); [|reflexivity].
      exfalso. assert (E : firstn (S (length P - 2)) (LFormFacts.bra [P] 0) = []) by (apply Hi; reflexivity). apply (f_equal (@length tensor)) in E.
      unfold LFormFacts.bra in E. cbn [nth] in E. rewrite firstn_length_le in E by lia. cbn in E. lia. }
  clearbody A B.
  assert (E : simple_sweep svd true Q sense P A B = Abort); [|cbn [simple_loop]; rewrite E; reflexivity].
  unfold simple_sweep.
  assert (Habort : forall s l, fold_left (simple_step svd true Q s) l Abort = Abort) by (intros s l; induction l as [|x l IH]; [reflexivity|exact IH]).
  set (e := if (0 <? sense)%Z then 0%nat else (length P - 1)%nat).
  assert (Ep : exists l, (if (0 <? sense)%Z then seq 0 (length P) else rev (seq 0 (length P))) = e :: l).
  { unfold e. destruct (length P) as [|m] eqn:Em; [lia|]. destruct (0 <? sense)%Z; [exists (seq 1 m); reflexivity|].
    exists (rev (seq 0 m)). rewrite seq_S, rev_app_distr. cbn [rev app Nat.add]. f_equal. lia. }
  destruct Ep as (l & ->). cbn [fold_left].
  assert (E1 : simple_step svd true Q (if (0 <? sense)%Z then 1 else -1)%Z (Ok (P, A, B, empty, empty, empty)) e = Abort); [|rewrite E1; apply Habort].
  unfold simple_step. cbn [bind]. unfold build_next_projector, e. destruct (0 <? sense)%Z; cbn [Z.ltb Z.compare].
  - destruct (Nat.ltb_spec 0 (length P - 1)) as [_|]; [|lia]. cbn [Nat.add]. rewrite HB. destruct (_ && _)%bool; [reflexivity|]. rewrite orb_true_r. reflexivity.
  - destruct (Nat.ltb_spec 0 (length P - 1)) as [_|]; [|lia]. replace (length P - 1 - 1)%nat with (length P - 2)%nat by lia. rewrite HB.
    destruct (_ && _)%bool; reflexivity.
Qed.
End Periodic.
