(** Proofs about the Trotter unitaries: the loops of apply() *)
From Coq Require Import Reals Lra Bool List Arith ZArith Lia Ring FinFun.
From Verif Require Import Scalar ScalarFacts RScal Tensor TensorFacts Spec MpsModel MpsFacts EnvFacts ExpectedFacts
  SparseSpec SparseFacts CanonSpec CanonModel TruncFacts CanonFacts CanonSweep
  TrotterSpec TrotterModel TrotterFacts TrotterApply TrotterRun.
Import ListNotations.
Local Open Scope K_scope.

Section Loop.
Context {RS : RScal}.
Add Ring Kring : k_ring.
Variable svd : tensor -> tensor * list R * tensor.
Variable flag : R.
Hypothesis Hsvd : svd_contract svd.
Variable u : unitary.
Variable psi : mps.
Variables D D' Dmax : nat.
Variable b : bool.
Variable tol : R.
Hypothesis Hlink : linked D psi D'.
Hypothesis HD : (0 < D)%nat.
Hypothesis Hflag : Dmax = 0%nat \/ flag <> 0%R.
Hypothesis Htol : eff_tol flag tol <> 0%R.
Hypothesis Hu : forall x, In x (blocks b 0 (length psi)) -> is_matrix (u_at u (fst x)) (block_dim (pdims psi) x) (block_dim (pdims psi) x).

Definition some (l : list nat) (q : nat) : nat -> nat -> K := if existsb (Nat.eqb q) l then mat (u_at u q) else delta.

Definition inv (l : list nat) (P : mps) (e : R) : Prop :=
  linked D P D' /\ pdims P = pdims psi /\ (0 <= e)%R /\
  ((1 <= eff_tol flag tol)%R -> Dmax = 0%nat -> e = 0%R) /\
  (e = 0%R -> exact_mode flag Dmax -> acted D D' psi P (layer_op b 0 (pdims psi) (some l))) /\
  (forall j, (forall k, In k l -> In (k, true) (blocks b 0 (length psi)) -> j <> S k) -> (dim (site P j) 0 <= dim (site psi j) 0)%nat) /\
  ((0 < Dmax)%nat -> forall k, In k l -> In (k, true) (blocks b 0 (length psi)) -> (dim (site P (S k)) 0 <= Dmax)%nat).

Lemma inv_start : inv [] psi 0.
Proof.
  split; [exact Hlink|]. split; [reflexivity|]. split; [lra|]. split; [reflexivity|]. split; [|split; [lia|intros _ k []]].
  intros _ _ is a c His Ha. symmetry. rewrite <- (sumcfg_id_op (pdims psi) is (fun js => chain psi js a c) His) at 1.
  apply sumcfg_ext. intros js Hjs. f_equal. rewrite <- (layer_id b 0 (pdims psi) is js His Hjs). apply layer_op_ext; try assumption. reflexivity.
Qed.

Lemma rel_0 x : rel 0 x = x.
Proof. unfold rel. rewrite Nat.sub_0_r. destruct x; reflexivity. Qed.

Lemma acted_more l P P' (x : nat * bool) : pdims P = pdims psi -> In x (blocks b 0 (length psi)) -> ~ In (fst x) l ->
  acted D D' psi P (layer_op b 0 (pdims psi) (some l)) -> acted D D' P P' (block_op (pdims psi) x (mat (u_at u (fst x)))) ->
  acted D D' psi P' (layer_op b 0 (pdims psi) (some (fst x :: l))).
Proof.
  intros Hp Hx Hn H1 H2 is a c His Ha. set (ds := pdims psi) in *.
  rewrite (H2 is a c) by (rewrite ?Hp; assumption). rewrite Hp.
  transitivity (sumcfg ds (fun js => sumcfg ds (fun ks => block_op ds x (mat (u_at u (fst x))) is js * layer_op b 0 ds (some l) js ks * chain psi ks a c))).
  { apply sumcfg_ext. intros js Hjs. rewrite (H1 js a c) by assumption. rewrite sumcfg_mul_l. apply sumcfg_ext. intros ks Hks. ring. }
  rewrite sumcfg_swap. apply sumcfg_ext. intros ks Hks. rewrite <- sumcfg_mul_r. f_equal.
  assert (Hlen : length ds = length psi) by apply length_pdims.
  pose proof (block_layer b 0 ds x (mat (u_at u (fst x))) (some l) is ks) as HB. rewrite rel_0, Hlen in HB. rewrite (HB Hx His Hks).
  apply layer_op_ext; try assumption. intros y Hy r q Hr Hq. rewrite rel_0 in Hr, Hq. rewrite Hlen in Hy.
  unfold upd, some. cbn [existsb]. destruct (Nat.eqb_spec (fst y) (fst x)) as [E|E]; cbn [orb]; [|reflexivity].
  rewrite <- E. destruct (existsb (Nat.eqb (fst y)) l) eqn:Ex.
  { exfalso. apply Hn. apply existsb_exists in Ex. destruct Ex as (z & Hz & Ez). apply Nat.eqb_eq in Ez. rewrite <- E, Ez. exact Hz. }
  assert (Exy : y = x).
  { destruct x as [kx fx], y as [ky fy]. cbn [fst] in *. subst ky. f_equal. clear - Hx Hy. destruct b.
    - apply blocks_true_in in Hx, Hy. destruct Hx as (j1 & _ & H1), Hy as (j2 & _ & H2). destruct fx, fy; auto; lia.
    - destruct (length psi) as [|n]; [destruct Hx|]. apply blocks_false_in in Hx, Hy.
      destruct Hx as [Hx|Hx], Hy as [Hy|Hy].
      + congruence.
      + assert (kx = 0)%nat by congruence. subst kx. apply blocks_range in Hy. cbn in Hy. lia.
      + assert (kx = 0)%nat by congruence. subst kx. apply blocks_range in Hx. cbn in Hx. lia.
      + apply blocks_true_in in Hx, Hy. destruct Hx as (j1 & _ & H1), Hy as (j2 & _ & H2). destruct fx, fy; auto; lia. }
  subst y. apply (sum_delta_r (block_dim ds x) q). exact Hq.
Qed.

Lemma step_single l P e k sense : inv l P e -> In (k, false) (blocks b 0 (length psi)) -> ~ In k l ->
  exists P', apply_onto_one_site svd flag P (u_at u k) k sense Dmax = Ok P' /\ inv (k :: l) P' e.
Proof.
  intros (I1 & I2 & I3 & I4 & I5 & I6 & I7) Hk Hn.
  assert (Hlen : length P = length psi) by (rewrite <- (length_pdims P), I2; apply length_pdims).
  pose proof (blocks_range _ _ _ _ Hk) as Hr. cbn [fst snd] in Hr.
  pose proof (Hu _ Hk) as HU. unfold block_dim in HU. cbn [fst snd] in HU.
  destruct (one_site_ok svd flag Hsvd P (u_at u k) k sense Dmax D D' I1 HD) as (P' & E & H1 & H2 & H3 & H4); [lia|assumption|rewrite I2; exact HU|].
  exists P'. split; [exact E|]. split; [exact H1|]. split; [congruence|]. split; [exact I3|]. split; [exact I4|]. split.
  - intros He Hm. apply (acted_more l P P' (k, false) I2 Hk Hn (I5 He Hm)). apply (H4 Hm).
  - split.
    + intros j Hj. etransitivity; [apply H3|]. apply I6. intros k' Hk' Hb. apply Hj; [right; exact Hk'|exact Hb].
    + intros HDm k' [<-|Hk'] Hb.
      * exfalso. clear - Hk Hb. destruct b.
        -- apply blocks_true_in in Hk, Hb. destruct Hk as (_ & _ & H1), Hb as (_ & _ & H2). lia.
        -- destruct (length psi) as [|n]; [destruct Hk|]. apply blocks_false_in in Hk, Hb.
           destruct Hk as [Hk|Hk], Hb as [Hb|Hb]; try discriminate.
           ++ assert (k = 0)%nat by congruence. subst k. apply blocks_range in Hb. cbn in Hb. lia.
           ++ apply blocks_true_in in Hk, Hb. destruct Hk as (_ & _ & H1), Hb as (_ & _ & H2). lia.
      * etransitivity; [apply H3|]. apply I7; assumption.
Qed.

Lemma step_pair l P e k sense : inv l P e -> In (k, true) (blocks b 0 (length psi)) -> ~ In k l ->
  exists P' e', apply_onto_two_sites svd flag P (u_at u k) k sense tol Dmax = Ok (P', e') /\ inv (k :: l) P' (e + e').
Proof.
  intros (I1 & I2 & I3 & I4 & I5 & I6 & I7) Hk Hn.
  assert (Hlen : length P = length psi) by (rewrite <- (length_pdims P), I2; apply length_pdims).
  pose proof (blocks_range _ _ _ _ Hk) as Hr. cbn [fst snd] in Hr.
  pose proof (Hu _ Hk) as HU. unfold block_dim in HU. cbn [fst snd] in HU.
  destruct (two_sites_ok svd flag Hsvd P (u_at u k) k sense tol Dmax D D' I1 HD) as (P' & e' & E & H1 & H2 & H3 & H4 & H5 & H6 & H7); [lia|assumption|rewrite I2; exact HU|assumption|].
  exists P', e'. split; [exact E|]. split; [exact H1|]. split; [congruence|]. split; [lra|]. split; [|split].
  - intros Ha Hb. rewrite I4, H6 by assumption. lra.
  - intros He Hm. apply (acted_more l P P' (k, true) I2 Hk Hn); [apply I5; [lra|exact Hm]|]. unfold block_op. cbn [fst snd]. rewrite <- I2. apply H7; [lra|exact Hm].
  - split.
    + intros j Hj. etransitivity; [apply H4; apply Hj; [left; reflexivity|exact Hk]|]. apply I6. intros k' Hk' Hb. apply Hj; [right; exact Hk'|exact Hb].
    + intros HDm k' [<-|Hk'] Hb; [apply H5; exact HDm|]. etransitivity; [apply H4|apply I7; assumption].
      intros [= ->]. contradiction.
Qed.

Lemma singles_ok ks l P e sense : inv l P e -> (forall k, In k ks -> In (k, false) (blocks b 0 (length psi)) /\ ~ In k l) -> NoDup ks ->
  exists P', apply_singles svd flag u ks sense Dmax (Ok (P, e)) = Ok (P', e) /\ inv (rev ks ++ l) P' e.
Proof.
  revert l P. induction ks as [|k ks IH]; intros l P HI Hks Hnd.
  - exists P. split; [reflexivity|exact HI].
  - destruct (Hks k (or_introl eq_refl)) as (Hk & Hn). destruct (step_single l P e k sense HI Hk Hn) as (P1 & E1 & HI1).
    unfold apply_singles in *. cbn [fold_left bind]. rewrite E1. cbn [bind].
    destruct (IH (k :: l) P1 HI1) as (P2 & E2 & HI2).
    + intros k' Hk'. split; [apply Hks; right; exact Hk'|]. intros [<-|H]; [inversion Hnd; contradiction|]. apply (Hks k' (or_intror Hk')). exact H.
    + inversion Hnd; assumption.
    + exists P2. split; [exact E2|]. cbn [rev]. rewrite <- app_assoc. exact HI2.
Qed.

Lemma pairs_ok ks l P e sense : inv l P e -> (forall k, In k ks -> In (k, true) (blocks b 0 (length psi)) /\ ~ In k l) -> NoDup ks ->
  exists P' e', apply_pairs svd flag u ks sense tol Dmax (Ok (P, e)) = Ok (P', e') /\ inv (rev ks ++ l) P' e'.
Proof.
  revert l P e. induction ks as [|k ks IH]; intros l P e HI Hks Hnd.
  - exists P, e. split; [reflexivity|exact HI].
  - destruct (Hks k (or_introl eq_refl)) as (Hk & Hn). destruct (step_pair l P e k sense HI Hk Hn) as (P1 & e1 & E1 & HI1).
    unfold apply_pairs in *. cbn [fold_left bind]. rewrite E1. cbn [bind].
    destruct (IH (k :: l) P1 _ HI1) as (P2 & e2 & E2 & HI2).
    + intros k' Hk'. split; [apply Hks; right; exact Hk'|]. intros [<-|H]; [inversion Hnd; contradiction|]. apply (Hks k' (or_intror Hk')). exact H.
    + inversion Hnd; assumption.
    + exists P2, e2. split; [exact E2|]. cbn [rev]. rewrite <- app_assoc. exact HI2.
Qed.

(** The three groups of blocks *)
Variables k0 : nat.
Hypothesis Hk0 : (k0 <= 1)%nat.
Hypothesis Hb : b = is_even k0.
Hypothesis Hu0 : u_k0 u = k0.
Hypothesis HuN : exists m, (u_kN u = k0 + 2 * m /\ u_kN u <= length psi < u_kN u + 2)%nat.
Hypothesis HuL : length (u_U u) = length psi.
Hypothesis Hne : (0 < length psi)%nat.

Lemma starts_eq m : u_kN u = (k0 + 2 * m)%nat -> pair_starts k0 (u_kN u) = map (fun n => (k0 + 2 * n)%nat) (seq 0 m).
Proof.
  intros ->. unfold pair_starts. do 2 f_equal. replace (k0 + 2 * m - k0 + 1)%nat with (1 + m * 2)%nat by lia. rewrite Nat.div_add by lia. reflexivity.
Qed.
Lemma in_pairs k : In k (pair_starts k0 (u_kN u)) <-> In (k, true) (blocks b 0 (length psi)).
Proof.
  destruct HuN as (m & HN & HL). rewrite (starts_eq m HN). rewrite in_map_iff. rewrite Hb. unfold is_even.
  destruct k0 as [|[|]]; [| |lia]; cbn [Nat.eqb].
  - rewrite blocks_true_in. split.
    + intros (n & <- & Hn). apply in_seq in Hn. exists n. lia.
    + intros (n & -> & Hn). exists n. split; [lia|]. apply in_seq. lia.
  - destruct (length psi) as [|L]; [lia|]. rewrite blocks_false_in, blocks_true_in. split.
    + intros (n & <- & Hn). apply in_seq in Hn. right. exists n. lia.
    + intros [H|(n & -> & Hn)]; [discriminate|]. exists n. split; [lia|]. apply in_seq. lia.
Qed.
Lemma in_singles k : (In k (seq 0 k0) \/ In k (seq (u_kN u) (length psi - u_kN u))) <-> In (k, false) (blocks b 0 (length psi)).
Proof.
  destruct HuN as (m & HN & HL). rewrite !in_seq. rewrite Hb. unfold is_even.
  destruct k0 as [|[|]]; [| |lia]; cbn [Nat.eqb].
  - rewrite blocks_true_in. split.
    + intros [H|H]; [lia|]. exists m. lia.
    + intros (n & -> & Hn). right. lia.
  - destruct (length psi) as [|L]; [lia|]. rewrite blocks_false_in, blocks_true_in. split.
    + intros [H|H]; [left; f_equal; lia|]. right. exists m. lia.
    + intros [[= ->]|(n & -> & Hn)]; [left; lia|]. right. lia.
Qed.
Lemma nodup_pairs : NoDup (pair_starts k0 (u_kN u)).
Proof.
  destruct HuN as (m & HN & HL). rewrite (starts_eq m HN). apply FinFun.Injective_map_NoDup; [intros x y; lia|apply seq_NoDup].
Qed.
Lemma pairs_disjoint k : In k (pair_starts k0 (u_kN u)) -> (k0 <= k < u_kN u)%nat.
Proof.
  destruct HuN as (m & HN & HL). rewrite (starts_eq m HN). rewrite in_map_iff. intros (n & <- & Hn). apply in_seq in Hn. lia.
Qed.

Lemma u_apply_inv sense : exists P e l, u_apply svd flag u psi sense tol Dmax false = Ok (P, (- (if Z.eqb sense 0 then 1 else sense))%Z, e) /\ inv l P e /\
  forall x, In x (blocks b 0 (length psi)) -> In (fst x) l.
Proof.
  unfold u_apply. rewrite HuL, Nat.ltb_irrefl. set (sn := if Z.eqb sense 0 then 1%Z else sense). rewrite Hu0. cbv zeta.
  destruct HuN as (m & HN & HL).
  assert (Hcov : forall l, (forall k, In k (seq 0 k0) \/ In k (pair_starts k0 (u_kN u)) \/ In k (seq (u_kN u) (length psi - u_kN u)) -> In k l) ->
     forall x, In x (blocks b 0 (length psi)) -> In (fst x) l).
  { intros l Hl (k, [|]) Hx; cbn [fst]; apply Hl; [right; left; apply in_pairs; exact Hx|]. apply in_singles in Hx. tauto. }
  destruct (Z.ltb_spec 0 sn) as [Hs|Hs].
  - destruct (singles_ok (seq 0 k0) [] psi 0 sn inv_start) as (P1 & E1 & I1); [|apply seq_NoDup|].
    { intros k Hk. split; [apply in_singles; left; exact Hk|intros []]. }
    destruct (pairs_ok (pair_starts k0 (u_kN u)) _ P1 0 sn I1) as (P2 & e2 & E2 & I2); [|apply nodup_pairs|].
    { intros k Hk. split; [apply in_pairs; exact Hk|]. apply pairs_disjoint in Hk. rewrite app_nil_r, <- in_rev, in_seq. lia. }
    destruct (singles_ok (seq (u_kN u) (length psi - u_kN u)) _ P2 e2 sn I2) as (P3 & E3 & I3); [|apply seq_NoDup|].
    { intros k Hk. split; [apply in_singles; right; exact Hk|]. rewrite !in_app_iff, <- !in_rev. apply in_seq in Hk.
      intros [H|[H|[]]]; [apply pairs_disjoint in H; lia|apply in_seq in H; lia]. }
    rewrite E1, E2, E3. cbn [bind]. exists P3, e2. eexists. split; [reflexivity|]. split; [exact I3|].
    apply Hcov. intros k Hk. rewrite !in_app_iff, <- !in_rev. tauto.
  - destruct (singles_ok (rev (seq (u_kN u) (length psi - u_kN u))) [] psi 0 sn inv_start) as (P1 & E1 & I1); [|apply NoDup_rev, seq_NoDup|].
    { intros k Hk. apply in_rev in Hk. split; [apply in_singles; right; exact Hk|intros []]. }
    destruct (pairs_ok (rev (pair_starts k0 (u_kN u))) _ P1 0 sn I1) as (P2 & e2 & E2 & I2); [|apply NoDup_rev, nodup_pairs|].
    { intros k Hk. apply in_rev in Hk. split; [apply in_pairs; exact Hk|]. apply pairs_disjoint in Hk. rewrite app_nil_r, <- !in_rev, in_seq. lia. }
    destruct (singles_ok (rev (seq 0 k0)) _ P2 e2 sn I2) as (P3 & E3 & I3); [|apply NoDup_rev, seq_NoDup|].
    { intros k Hk. apply in_rev in Hk. split; [apply in_singles; left; exact Hk|]. rewrite !in_app_iff, <- !in_rev. apply in_seq in Hk.
      intros [H|[H|[]]]; [apply pairs_disjoint in H; lia|apply in_seq in H; lia]. }
    rewrite E1, E2, E3. cbn [bind]. exists P3, e2. eexists. split; [reflexivity|]. split; [exact I3|].
    apply Hcov. intros k Hk. rewrite !in_app_iff, <- !in_rev. tauto.
Qed.

(** apply(psi, sense, tol, Dmax, false) *)
Lemma u_apply_ok sense : exists P e, u_apply svd flag u psi sense tol Dmax false = Ok (P, (- (if Z.eqb sense 0 then 1 else sense))%Z, e) /\
  linked D P D' /\ pdims P = pdims psi /\ (0 <= e)%R /\
  ((1 <= eff_tol flag tol)%R -> Dmax = 0%nat -> e = 0%R) /\
  (e = 0%R -> exact_mode flag Dmax -> acted D D' psi P (layer_op b 0 (pdims psi) (fun q => mat (u_at u q)))) /\
  (forall j, ~ In (j, true) (blocks b 0 (length psi)) -> (dim (site P (S j)) 0 <= dim (site psi (S j)) 0)%nat) /\
  ((0 < Dmax)%nat -> forall j, In (j, true) (blocks b 0 (length psi)) -> (dim (site P (S j)) 0 <= Dmax)%nat).
Proof.
  destruct (u_apply_inv sense) as (P & e & l & E & (I1 & I2 & I3 & I4 & I5 & I6 & I7) & Hl). exists P, e. split; [exact E|].
  split; [exact I1|]. split; [exact I2|]. split; [exact I3|]. split; [exact I4|]. split; [|split].
  - intros He Hm is a c His Ha. rewrite (I5 He Hm is a c His Ha). apply sumcfg_ext. intros js Hjs. f_equal.
    apply layer_op_ext; try assumption. intros x Hx r q _ _. rewrite length_pdims in Hx. unfold some.
    replace (existsb (Nat.eqb (fst x)) l) with true; [reflexivity|]. symmetry. apply existsb_exists. exists (fst x). split; [apply Hl; exact Hx|apply Nat.eqb_refl].
  - intros j Hj. apply I6. intros k Hk Hkb [= ->]. contradiction.
  - intros HDm j Hj. apply I7; [exact HDm| |exact Hj]. apply (Hl (j, true) Hj).
Qed.
End Loop.
