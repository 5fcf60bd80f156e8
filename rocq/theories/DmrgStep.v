(** * class DMRG: one step and one sweep of the one-site algorithm *)
From Coq Require Import Reals Lra Bool List Arith ZArith Lia Ring.
From Verif Require Import Scalar ScalarFacts RScal Tensor TensorFacts Spec MpsModel MpsFacts StateFacts StateFacts2 CanonSpec CanonModel TruncFacts SplitFacts CanonFacts CanonNorm CanonSweep CanonProps
  SimplifySpec SimplifyModel SimplifyFacts SimplifyStep QFormFacts QFormValue SparseFacts SolveStep
  HamSpec HamModel HamFacts HamConst MinimizerModel MinimizeSpec MinLocal MinStep MinSweep MinLoop DmrgModel DmrgSplit DmrgBlocks DmrgLocal DmrgSpec DmrgFamily.
From Verif Require ITebdFacts.
Import ListNotations.
Local Open Scope K_scope.

Lemma rsum_scale' {RS : RScal} n (e : R) f : rsum n (fun i => e * f i)%R = (e * rsum n f)%R.
Proof. induction n as [|n IH]; cbn; [ring|]. rewrite IH. ring. Qed.

Section Step.
Context {RS : RScal}.
Add Ring KringDS : k_ring.
Variable svd : tensor -> tensor * list R * tensor.
Variable flag : R.
Hypothesis Hsvd : svd_contract svd.
Variable eigs : tensor -> nat -> tensor -> list K * list K.
Variable arpack : (tensor -> tensor) -> nat -> nat -> tensor -> option (list K * list K).
Hypothesis Heigs : dense_contract eigs.
Hypothesis Harp : arpack_contract arpack.
Variable D : dmrg.
Let H := d_H D.
Notation N := (h_size H).
Hypothesis HV : valid_dmrg D.
Hypothesis HP0 : d_P0 D = [].
Notation ds := (h_dims H).
Notation W P := (weight ds (amp P)).
Notation En P := (henergy H P).
Notation DAt := (DAt D).
Notation hsand := (hsand D).

(** The only way to fail: Arpack *)
Definition solver_failed : Prop := exists f n v, arpack f n 1%nat v = None.
Definition wp {A : Type} (r : result A) (Post : A -> Prop) : Prop := match r with Ok x => Post x | Abort => solver_failed end.

Lemma wp_bind A B (r : result A) (f : A -> result B) Post : wp r (fun x => wp (f x) Post) -> wp (bind r f) Post.
Proof. destruct r; intros Hr; exact Hr. Qed.
Lemma wp_impl A (r : result A) (P Q : A -> Prop) : wp r P -> (forall x, P x -> Q x) -> wp r Q.
Proof. destruct r; cbn; auto. Qed.

Lemma ham_herm x y : in_range ds x -> in_range ds y -> ham_op H x y = kconj (ham_op H y x).
Proof.
  intros Hx Hy. pose proof (in_range_length _ _ Hx) as Lx. pose proof (in_range_length _ _ Hy) as Ly. rewrite h_dims_length in Lx, Ly.
  rewrite !ham_hseg by (try apply (V_per D HV); assumption). exact (hseg_herm D (V_h1 D HV) (V_h2 D HV) N 0 x y (le_n _) Hx Hy).
Qed.

Lemma hsand_conj A B : kconj (hsand A B) = hsand B A.
Proof.
  unfold DmrgFamily.hsand. fold H. rewrite sumcfg_conj.
  rewrite (sumcfg_ext ds _ (fun x => sumcfg ds (fun y => kconj (amp B y) * ham_op H y x * amp A x))).
  - apply sumcfg_swap.
  - intros x Hx. rewrite sumcfg_conj. apply sumcfg_ext. intros y Hy. rewrite !kconj_mul, kconj_inv. rewrite (ham_herm y x Hy Hx). ring.
Qed.

Lemma En_hsand P : pdims P = ds -> En P = kre (hsand P P).
Proof. intros HP. unfold henergy, henergy_of. rewrite HP. reflexivity. Qed.

Lemma En_ext P P' : pdims P = ds -> pdims P' = ds -> (forall is, in_range ds is -> amp P' is = amp P is) -> En P' = En P /\ W P' = W P.
Proof.
  intros H1 H2 He. split.
  - rewrite !En_hsand by assumption. apply f_equal. unfold DmrgFamily.hsand. fold H. apply sumcfg_ext. intros x Hx. apply sumcfg_ext. intros y Hy. rewrite !He by assumption. reflexivity.
  - apply rinj_inj. rewrite !rinj_weight. unfold inner. apply sumcfg_ext. intros x Hx. rewrite He by exact Hx. reflexivity.
Qed.

Lemma weight_at k P : open_mps P -> pdims P = ds -> (k < length P)%nat -> canonical_at k P -> W P = frob2 (site P k).
Proof. intros Ho HP Hk (H1 & H2). rewrite <- HP. apply rinj_inj. rewrite rinj_weight. apply canonical_norm; assumption. Qed.

Lemma weight_emb k P x : open_mps P -> pdims P = ds -> (k < length P)%nat -> canonical_at k P ->
  W (emb1 k P x) = rsum (nprod (dims (site P k))) (fun i => kmod2 (x i)).
Proof.
  intros Ho Hd Hk Hc. destruct (emb1_open ds k P x Ho Hd Hk) as (O1 & D1).
  rewrite (weight_at k (emb1 k P x) O1 D1).
  - unfold emb1. rewrite site_replace_eq by exact Hk. apply frob2_ten.
  - unfold emb1. rewrite length_replace_nth. exact Hk.
  - apply canonical_replace. exact Hc.
Qed.

Lemma local_problem k P blk dk a d c : DAt k P blk -> dims (site P k) = [a; d; c] ->
  exists F G, one_site_parts D P blk k dk = Ok (F, G) /\
    let n := (a * d * c)%nat in let M := one_site_matrix P k (F, G) in
    is_matrix M n n /\ hermitian n (mat M) /\ acts_as (fun v => Ok (one_site_product P k (F, G) v)) n (mat M) /\
    forall e p, ground_state n (mat M) e p ->
      W (emb1 k P p) = 1%R /\ En (emb1 k P p) = e /\ forall x, (e * W (emb1 k P x) <= En (emb1 k P x))%R.
Proof.
  intros HA Hs. pose proof HA as (Ho & Hpd & Hk & Hcan & _). pose proof (at_len D k P blk HA) as Hl. fold H in Hl, Hpd, Hk.
  destruct (parts_ok D HV k P blk dk a d c HA Hs) as (F & G & E & HF & HG & Hco). exists F, G. split; [exact E|]. cbv zeta.
  destruct (matrix_ok k P F G a d c Hs HF HG) as (HM & _). cbv zeta in HM.
  assert (HQ : forall x y, hsand (emb1 k P x) (emb1 k P y) = sum (a * d * c) (fun r => sum (a * d * c) (fun s => kconj (x r) * mat (one_site_matrix P k (F, G)) r s * y s))).
  { intros x y. apply (form_ok D HV k P F G a d c x y); assumption. }
  assert (Hk' : (k < length P)%nat) by (rewrite Hl; exact Hk).
  assert (Hn : nprod (dims (site P k)) = (a * d * c)%nat) by (rewrite Hs; cbn; ring).
  split; [exact HM|]. split; [|split; [apply (product_ok D HV k P F G a d c); assumption|]].
  - intros i j Hi Hj. rewrite <- (sum_delta2 (a * d * c)%nat (mat (one_site_matrix P k (F, G))) i j), <- (sum_delta2 (a * d * c)%nat (mat (one_site_matrix P k (F, G))) j i) by assumption.
    rewrite <- !HQ. rewrite hsand_conj. reflexivity.
  - intros e p (G1 & G2 & G3). set (n := (a * d * c)%nat) in *. set (M := mat (one_site_matrix P k (F, G))) in *.
    pose proof (fun x => proj2 (emb1_open ds k P x Ho Hpd Hk')) as HE.
    split; [rewrite (weight_emb k P p) by assumption; rewrite Hn; exact G1|]. split.
    + rewrite En_hsand by apply HE. rewrite HQ. rewrite (sum_ext n _ (fun r => rinj (e * kmod2 (p r)))).
      * rewrite <- rinj_rsum, kre_rinj. transitivity (e * rsum n (fun i => kmod2 (p i)))%R; [apply rsum_scale'|rewrite G1; ring].
      * intros r Hr. rewrite (sum_ext n _ (fun c => kconj (p r) * (M r c * p c))) by (intros; ring). rewrite <- sum_mul_l, G2 by exact Hr. rewrite rinj_mul, kmod2_spec. ring.
    + intros x. rewrite (weight_emb k P x) by assumption. rewrite Hn, En_hsand by apply HE. rewrite HQ. apply G3.
Qed.

(** ** The blocks after a step *)
Lemma Lblk_same P P' j T : (j < length P)%nat -> length P' = length P -> (forall q, (q <= j)%nat -> site P' q = site P q) -> Lblk D P j T -> Lblk D P' j T.
Proof.
  intros Hj Hl Hs (H1 & H2). unfold Lblk. rewrite (Hs j (le_n _)).
  rewrite (firstn_ext empty (S j) P' P) by (try lia; intros q Hq; apply Hs; lia). split; assumption.
Qed.
Lemma Rblk_same P P' j T : (j < length P)%nat -> length P' = length P -> (forall q, (j <= q)%nat -> site P' q = site P q) -> Rblk D P j T -> Rblk D P' j T.
Proof.
  intros Hj Hl Hs (H1 & H2). unfold Rblk. rewrite (Hs j (le_n _)).
  rewrite (skipn_ext empty j P' P) by (try lia; intros q Hq; apply Hs; lia). split; assumption.
Qed.

Lemma replaced blk k T : (k < length blk)%nat -> nth k (replace_nth k T blk) empty = T.
Proof. apply nth_replace_nth_eq. Qed.

Lemma advance d k k' P P' blk : DAt k P blk -> moved d N k k' -> cstepped ds d k k' P P' ->
  exists blk', (if (0 <? sgn d)%Z then update_matrices_left D P' (blk, []) k else update_matrices_right D P' (blk, []) k) = Ok (blk', []) /\ DAt k' P' blk'.
Proof.
  intros HA Hm HS. pose proof (at_len D k P blk HA) as Hl. fold H in Hl. pose proof HA as (Ho & Hpd & Hk & Hcan & (Bl & BL & BR)). fold H in Hpd, Hk, Bl, BR.
  rewrite <- Hl in Hm. pose proof (canon_moved ds d k k' P P' Hcan Hm HS) as Hcan'. pose proof HS as (O' & D' & Hk' & L' & HI & Hoth & _).
  assert (Hkn : (k' < N)%nat) by (destruct d; cbn [moved] in Hm; lia).
  destruct d; cbn [sgn moved Z.ltb Z.compare] in *.
  - destruct Hm as (-> & Hm).
    destruct (update_left D (V_ok D HV) (V_loc D HV) (V_N D HV) (V_h1 D HV) (V_h2 D HV) HP0 (V_nQ D HV) P' blk k O' D' Hk) as (T & E & HT).
    + intros q Hq. apply (proj1 Hcan'). lia.
    + intros Hk0. apply (Lblk_same P); [lia|exact L'| |apply BL; lia]. intros q Hq. apply Hoth; lia.
    + exists (replace_nth k T blk). split; [exact E|]. split; [exact O'|]. split; [exact D'|]. split; [exact Hkn|]. split; [exact Hcan'|].
      split; [rewrite length_replace_nth; exact Bl|]. split; intros q Hq.
      * destruct (Nat.eq_dec q k) as [->|Hne]; [rewrite replaced by lia; exact HT|]. rewrite nth_replace_nth_neq by lia.
        apply (Lblk_same P); [lia|exact L'| |apply BL; lia]. intros r Hr. apply Hoth; lia.
      * rewrite nth_replace_nth_neq by lia. apply (Rblk_same P); [fold H in Hq; lia|exact L'| |apply BR; fold H in Hq; lia]. intros r Hr. apply Hoth; lia.
  - subst k.
    destruct (update_right D (V_ok D HV) (V_loc D HV) (V_N D HV) (V_h1 D HV) (V_h2 D HV) HP0 (V_nQ D HV) P' blk (S k') O' D' Hk) as (T & E & HT).
    + intros q Hq. apply (proj2 Hcan'). lia.
    + intros Hk0. apply (Rblk_same P); [fold H in Hk0; lia|exact L'| |apply BR; fold H in Hk0; lia]. intros q Hq. apply Hoth; lia.
    + exists (replace_nth (S k') T blk). split; [exact E|]. split; [exact O'|]. split; [exact D'|]. split; [exact Hkn|]. split; [exact Hcan'|].
      split; [rewrite length_replace_nth; exact Bl|]. split; intros q Hq.
      * rewrite nth_replace_nth_neq by lia. apply (Lblk_same P); [lia|exact L'| |apply BL; lia]. intros r Hr. apply Hoth; lia.
      * destruct (Nat.eq_dec q (S k')) as [->|Hne]; [rewrite replaced by lia; exact HT|]. rewrite nth_replace_nth_neq by lia.
        apply (Rblk_same P); [fold H in Hq; lia|exact L'| |apply BR; fold H in Hq; lia]. intros r Hr. apply Hoth; lia.
Qed.

Lemma stay (d : bool) k P blk X : DAt k P blk -> k = (if d then N - 1 else 0)%nat -> wf X -> dims X = dims (site P k) ->
  exists blk', (if (0 <? sgn d)%Z then update_matrices_left D (replace_nth k X P) (blk, []) k else update_matrices_right D (replace_nth k X P) (blk, []) k) = Ok (blk', []) /\
    DAt k (replace_nth k X P) blk'.
Proof.
  intros HA Hm HwX HdX. pose proof (at_len D k P blk HA) as Hl. fold H in Hl. pose proof HA as (Ho & Hpd & Hk & Hcan & (Bl & BL & BR)). fold H in Hpd, Hk, Bl, BR.
  assert (Hkl : (k < length P)%nat) by lia. destruct (open_replace P k X Ho Hkl HwX HdX) as (O1 & D1). rewrite Hpd in D1.
  pose proof (canonical_replace k P X Hcan) as Hc1. set (P1 := replace_nth k X P) in *.
  assert (Hl1 : length P1 = length P) by apply length_replace_nth.
  assert (Hoth : forall q, q <> k -> site P1 q = site P q) by (intros q Hq; apply site_replace_neq; exact Hq).
  assert (BL1 : forall q, (q < k)%nat -> Lblk D P1 q (nth q blk empty)).
  { intros q Hq. apply (Lblk_same P); [lia|exact Hl1| |apply BL; lia]. intros r Hr. apply Hoth; lia. }
  assert (BR1 : forall q, (k < q < N)%nat -> Rblk D P1 q (nth q blk empty)).
  { intros q Hq. apply (Rblk_same P); [lia|exact Hl1| |apply BR; lia]. intros r Hr. apply Hoth; lia. }
  assert (HE : exists T, (if (0 <? sgn d)%Z then update_matrices_left D P1 (blk, []) k else update_matrices_right D P1 (blk, []) k) = Ok (replace_nth k T blk, [])).
  { destruct d; cbn [sgn Z.ltb Z.compare].
    - destruct (update_left D (V_ok D HV) (V_loc D HV) (V_N D HV) (V_h1 D HV) (V_h2 D HV) HP0 (V_nQ D HV) P1 blk k O1 D1 Hk (proj1 Hc1)) as (T & E & _); [|exists T; exact E].
      intros Hk0. apply BL1. lia.
    - destruct (update_right D (V_ok D HV) (V_loc D HV) (V_N D HV) (V_h1 D HV) (V_h2 D HV) HP0 (V_nQ D HV) P1 blk k O1 D1 Hk (proj2 Hc1)) as (T & E & _); [|exists T; exact E].
      intros Hk0. apply BR1. fold H in Hk0. lia. }
  destruct HE as (T & E). exists (replace_nth k T blk). split; [exact E|]. split; [exact O1|]. split; [exact D1|]. split; [exact Hk|]. split; [exact Hc1|].
  split; [rewrite length_replace_nth; exact Bl|]. split; intros q Hq; rewrite nth_replace_nth_neq by (fold H in Hq; lia); [apply BL1|apply BR1]; assumption.
Qed.

(** ** One step *)
(** E is the least energy of the states that differ from Q only at the site k. *)
Definition optimal (Q : mps) (k : nat) (E : R) : Prop := open_mps Q /\ pdims Q = ds /\
  forall phi, open_mps phi -> pdims phi = ds -> differs_at Q phi k -> (E * W phi <= En phi)%R.

Definition sok (k' klast : nat) (P' : mps) (blk' : list tensor) (e : R) : Prop :=
  DAt k' P' blk' /\ (forall lb, hlower_bound H lb -> (lb <= e)%R) /\ (exact_flag flag -> W P' = 1%R /\ En P' = e) /\
  exists Q, optimal Q klast e /\ (exact_flag flag -> forall is, in_range ds is -> amp P' is = amp Q is) /\ (k' = klast -> Q = P').
Definition smaller (P P' : mps) : Prop := forall j, (dim (site P' j) 0 <= dim (site P j) 0)%nat.

Lemma neig_one : neig D = 1%nat.
Proof. unfold neig. assert (d_neigenvalues D <= 1)%Z by apply HV. rewrite Z.max_l by lia. reflexivity. Qed.

Lemma single_step (d : bool) k P blk : DAt k P blk -> (d = false -> (0 < k)%nat) ->
  wp (minimize_single_site svd flag eigs arpack D P (blk, []) k (sgn d)) (fun '(P', B', e) =>
    exists blk', B' = (blk', []) /\ sok (nxt d N k) k P' blk' e /\ (e * W P <= En P)%R /\ smaller P P').
Proof.
  intros HA Hd0. pose proof (at_len D k P blk HA) as Hl. fold H in Hl. pose proof HA as (Ho & Hpd & Hk & Hcan & _). fold H in Hpd, Hk.
  assert (Hkl : (k < length P)%nat) by lia. destruct (site_dims P k Ho Hkl) as (a & i & c & Hs & Hws & Ha & Hi & Hc).
  destruct (local_problem k P blk (sgn d) a i c HA Hs) as (F & G & E & HM & Hherm & Hact & Hgr). cbv zeta in *.
  unfold minimize_single_site. cbv zeta. cbn [fst]. rewrite E. cbn [bind]. unfold dim. rewrite Hs. cbn [nth].
  set (n := (a * i * c)%nat) in *. set (M := one_site_matrix P k (F, G)) in *.
  assert (Hn0 : (0 < n)%nat) by (unfold n; nia).
  assert (Hld : length (data (reshape (site P k) [n])) = n) by (cbn [reshape data]; unfold wf in Hws; rewrite Hws, Hs; unfold n; cbn; ring).
  apply wp_bind. rewrite neig_one.
  assert (HE : wp (if (n <=? 10)%nat then Ok (eigs M 1 (reshape (site P k) [n])) else match arpack (one_site_product P k (F, G)) n 1 (reshape (site P k) [n]) with Some r => Ok r | None => Abort end)
     (fun r => exists e V, r = ([rinj e], V) /\ length V = n /\ ground_state n (mat M) e (fun i => nth i V 0))).
  { destruct (n <=? 10)%nat.
    - destruct (Heigs M n (reshape (site P k) [n]) Hn0 HM Hherm Hld) as (e & V & -> & HV1 & HV2). exists e, V. auto.
    - destruct (Harp (one_site_product P k (F, G)) n (reshape (site P k) [n]) (mat M) Hn0 Hact Hherm Hld) as [E0|(e & V & E0 & HV1 & HV2)].
      + rewrite E0. cbn. exists (one_site_product P k (F, G)), n, (reshape (site P k) [n]). exact E0.
      + rewrite E0. cbn. exists e, V. auto. }
  apply (wp_impl _ _ _ _ HE). intros r (e & V & -> & HlV & Hg). clear HE. cbv beta iota.
  destruct (Hgr e _ Hg) as (G1 & G2 & G3). set (p := fun i => nth i V 0) in *.
  assert (HnV : nprod [a; i; c] = n) by (unfold n; cbn; ring).
  assert (Hfv : wf (first_vector n V)) by (unfold wf, first_vector; cbn [data dims nprod fold_right]; rewrite firstn_length; lia).
  destruct (checked_reshape_ok (first_vector n V) [a; i; c] Hfv) as (E1 & E2); [cbn [first_vector dims]; rewrite HnV; reflexivity|].
  rewrite E1. cbn [bind]. rewrite E2.
  assert (Eten : ten [a; i; c] (fun i => get (first_vector n V) [i]) = ten (dims (site P k)) p).
  { rewrite Hs. unfold ten. apply (f_equal (mkT _)). apply map_ext_in. intros r Hr. apply in_seq in Hr. rewrite HnV in Hr. unfold get, first_vector, p. cbn [dims offset data].
    rewrite Nat.mul_0_r, Nat.add_0_r. rewrite firstn_all2 by lia. reflexivity. }
  rewrite Eten. set (X := ten (dims (site P k)) p) in *.
  assert (HwX : wf X) by apply wf_ten. assert (HdX : dims X = dims (site P k)) by reflexivity.
  assert (Hfr : frob2 X = 1%R) by (unfold X; rewrite frob2_ten, Hs, HnV; apply Hg).
  assert (Hnz : nonzero3 X).
  { destruct (nth_nonzero_frob X) as (r & Hr & Hne); [rewrite Hfr; lra|]. unfold wf in HwX. rewrite HwX, HdX, Hs in Hr.
    pose proof (unravel_in_range [a; i; c] r Hr) as Hu. pose proof (offset_unravel [a; i; c] r Hr) as Eo.
    set (u := unravel [a; i; c] r) in *. clearbody u. apply ITebdFacts.in_range_inv3 in Hu. destruct Hu as (x & y & z & -> & Hx & Hy & Hz).
    exists x, y, z. unfold dim. rewrite HdX, Hs. cbn [nth]. repeat split; auto. unfold get. rewrite HdX, Hs, Eo. exact Hne. }
  assert (Hopt : optimal (emb1 k P p) k e).
  { destruct (emb1_open ds k P p Ho Hpd Hkl) as (O1 & D1). split; [exact O1|]. split; [exact D1|].
    intros phi O2 D2 Df. rewrite (differ1 ds k P phi Ho Hpd Hkl O2 D2); [apply G3|]. intros j Hj. rewrite Df by exact Hj. apply site_replace_neq. exact Hj. }
  assert (Hself : (e * W P <= En P)%R).
  { rewrite (differ1 ds k P P Ho Hpd Hkl Ho Hpd (fun j _ => eq_refl)). apply G3. }
  assert (Hlb : forall lb, hlower_bound H lb -> (lb <= e)%R).
  { intros lb Hb. specialize (Hb (amp (emb1 k P p))). rewrite G1 in Hb. unfold henergy in G2. rewrite (proj2 (emb1_open ds k P p Ho Hpd Hkl)) in G2. lra. }
  destruct (nxt_cases d N k Hk) as [Hm|(He & Ek)].
  - pose proof Hm as Hm'. rewrite <- Hl in Hm. destruct (store_core svd flag Hsvd ds d k (nxt d N k) P X Ho Hpd Hkl HwX HdX (or_intror Hnz) ltac:(rewrite <- Hl; rewrite Hl in Hm |- *; exact Hm)) as (P' & ES & HS & Hdim & Hamp).
    rewrite ES. cbn [bind]. destruct (advance d k _ P P' blk HA Hm' HS) as (blk' & EU & HA'). rewrite EU. cbn [bind first_energy]. rewrite kre_rinj. cbn [wp].
    exists blk'. split; [reflexivity|]. split; [|split; [exact Hself|exact Hdim]].
    split; [exact HA'|]. split; [exact Hlb|]. pose proof HS as (_ & D' & _). split.
    + intros Hx. specialize (Hamp Hx). destruct (En_ext (emb1 k P p) P' (proj2 (emb1_open ds k P p Ho Hpd Hkl)) D' Hamp) as (U1 & U2). rewrite U1, U2. auto.
    + exists (emb1 k P p). split; [exact Hopt|]. split; [exact Hamp|]. intros Ek. exfalso. rewrite Ek in Hm'. destruct d; cbn [moved] in Hm'; lia.
  - destruct d; [|specialize (Hd0 eq_refl); lia].
    rewrite (single_core_end svd flag true true k P X ltac:(rewrite Hl; exact He) Hkl). cbn [bind].
    destruct (stay true k P blk X HA He HwX HdX) as (blk' & EU & HA'). rewrite EU. cbn [bind first_energy]. rewrite kre_rinj. cbn [wp].
    exists blk'. split; [reflexivity|]. rewrite Ek. split; [|split; [exact Hself|]].
    + split; [exact HA'|]. split; [exact Hlb|]. split; [intros _; auto|]. exists (emb1 k P p). split; [exact Hopt|]. split; reflexivity.
    + intros j. destruct (Nat.eq_dec j k) as [->|Hj]; [|rewrite site_replace_neq by exact Hj; apply le_n].
      rewrite site_replace_eq by exact Hkl. unfold dim. rewrite HdX. apply le_n.
Qed.

(** ** The first blocks *)
Lemma init_ok P : open_mps P -> pdims P = ds -> canonical_at 0 P -> exists blk, init_matrices D P = Ok (blk, []) /\ DAt 0 P blk.
Proof.
  intros Ho Hpd Hcan. pose proof (V_N D HV) as HN. fold H in HN.
  assert (Hl : length P = N) by (rewrite <- length_pdims, Hpd; apply h_dims_length).
  assert (HI : forall m, (m <= N)%nat -> exists blk, fold_left (fun r k => bind r (fun B => update_matrices_right D P B k)) (rev (seq (N - m) m)) (Ok (repeat empty N, d_P0 D)) = Ok (blk, []) /\
     length blk = N /\ forall j, (N - m <= j < N)%nat -> Rblk D P j (nth j blk empty)).
  { induction m as [|m IH]; intros Hm.
    - exists (repeat empty N). rewrite HP0. split; [reflexivity|]. split; [apply repeat_length|]. intros j Hj. lia.
    - destruct (IH ltac:(lia)) as (blk & E & L & HB). cbn [seq]. replace (S (N - S m)) with (N - m)%nat by lia. cbn [rev]. rewrite fold_left_app, E. cbn [fold_left bind].
      destruct (update_right D (V_ok D HV) (V_loc D HV) (V_N D HV) (V_h1 D HV) (V_h2 D HV) HP0 (V_nQ D HV) P blk (N - S m) Ho Hpd) as (T & ET & HT).
      + fold H. lia.
      + intros q Hq. apply (proj2 Hcan). lia.
      + intros Hq. apply HB. fold H in Hq. lia.
      + exists (replace_nth (N - S m) T blk). split; [exact ET|]. split; [rewrite length_replace_nth; exact L|]. intros j Hj.
        destruct (Nat.eq_dec j (N - S m)) as [->|Hne]; [rewrite replaced by lia; exact HT|]. rewrite nth_replace_nth_neq by lia. apply HB. lia. }
  destruct (HI N (le_n _)) as (blk & E & L & HB). rewrite Nat.sub_diag in *. exists blk. split; [exact E|].
  split; [exact Ho|]. split; [exact Hpd|]. split; [fold H; lia|]. split; [exact Hcan|]. split; [exact L|]. split; [intros j Hj; lia|]. intros j Hj. apply HB. fold H in Hj. lia.
Qed.

(** ** One sweep *)
Notation sites := (dmrg_sites svd flag eigs arpack D).

Lemma below_trans P P1 e e1 : (exact_flag flag -> W P1 = 1%R /\ En P1 = e1) -> (e1 * W P <= En P)%R -> (exact_flag flag -> (e * W P1 <= En P1)%R) ->
  exact_flag flag -> (e * W P <= En P)%R.
Proof. intros H1 H2 H3 Hx. destruct (H1 Hx) as (E1 & E2). specialize (H3 Hx). rewrite E1, E2 in H3. pose proof (weight_nonneg ds (amp P)). nra. Qed.

Lemma sites_ok (d : bool) ks : forall k0 kend P blk E0, ks <> [] -> route (nxt d N) ks k0 kend -> (d = false -> forall k, In k ks -> (0 < k)%nat) -> DAt k0 P blk ->
  wp (sites 0 (sgn d) ks P (blk, []) E0) (fun '(P', r) =>
    exists blk' e, r = Some ((blk', []), e) /\ sok kend (last ks 0%nat) P' blk' e /\ (exact_flag flag -> (e * W P <= En P)%R) /\ smaller P P').
Proof.
  induction ks as [|k ks IH]; intros k0 kend P blk E0 Hne HR Hpos HA; [congruence|]. cbn [route] in HR. destruct HR as (-> & HR).
  cbn [dmrg_sites]. cbn [Z.eqb]. apply wp_bind, wp_bind.
  apply (wp_impl _ _ _ _ (single_step d k0 P blk HA (fun E => Hpos E k0 (or_introl eq_refl)))). intros ((P1 & B1) & e1) (blk1 & -> & HS & Hself & Hsm). cbn [wp].
  destruct ks as [|k1 ks].
  - cbn [dmrg_sites wp route last] in *. subst kend. exists blk1, e1. split; [reflexivity|]. split; [exact HS|]. split; [intros _; exact Hself|exact Hsm].
  - pose proof HS as (HA1 & _ & Hx1 & _).
    apply (wp_impl _ _ _ _ (IH (nxt d N k0) kend P1 blk1 e1 ltac:(discriminate) HR (fun E k Hk => Hpos E k (or_intror Hk)) HA1)).
    intros (P' & r) (blk' & e & -> & HS' & Hbel & Hsm'). exists blk', e. split; [reflexivity|]. split; [exact HS'|]. split.
    + intros Hx. apply (below_trans P P1 e e1); assumption.
    + intros j. eapply Nat.le_trans; [apply Hsm'|apply Hsm].
Qed.

(** The state at the end of a sweep: to the right at the last site, to the left at the first *)
Definition settled (d : bool) (P : mps) (blk : list tensor) (E : R) : Prop :=
  sok (if d then N - 1 else 0)%nat (if d then N - 1 else 1)%nat P blk E.

Lemma sweep_ok (d : bool) P blk E0 : DAt (if d then 0 else N - 1)%nat P blk ->
  dmrg_route D 0 d <> [] /\
  wp (sites 0 (if d then 1 else -1)%Z (dmrg_route D 0 d) P (blk, []) E0) (fun '(P', r) =>
    exists blk' e, r = Some ((blk', []), e) /\ settled d P' blk' e /\ (exact_flag flag -> (e * W P <= En P)%R) /\ smaller P P').
Proof.
  intros HA. pose proof (V_N D HV) as HN. fold H in HN. unfold dmrg_route. cbn [Z.eqb]. fold H. unfold settled.
  destruct d.
  - assert (Hne : seq 0 N <> []) by (destruct N; [lia|discriminate]). split; [exact Hne|]. change 1%Z with (sgn true).
    assert (El : last (seq 0 N) 0%nat = (N - 1)%nat) by (replace N with (S (N - 1)) at 1 by lia; rewrite seq_S; apply last_last).
    assert (HR : route (nxt true N) (seq 0 N) 0 (N - 1)).
    { apply route_right; [|lia|].
      + intros k _ Hk. unfold nxt. destruct (Nat.eqb_spec (S k) N); lia.
      + unfold nxt. destruct (Nat.eqb_spec (S (0 + N - 1)) N); lia. }
    pose proof (sites_ok true (seq 0 N) 0 (N - 1) P blk E0 Hne HR ltac:(discriminate) HA) as Q. rewrite El in Q. exact Q.
  - assert (Hr : rev (seq 1 (N - 1)) = rev (seq 2 (N - 2)) ++ [1%nat]).
    { replace (N - 1)%nat with (S (N - 2)) by lia. reflexivity. }
    assert (Hne : rev (seq 1 (N - 1)) <> []) by (rewrite Hr; intros E; apply app_eq_nil in E; destruct E; discriminate). split; [exact Hne|]. change (-1)%Z with (sgn false).
    assert (El : last (rev (seq 1 (N - 1))) 0%nat = 1%nat) by (rewrite Hr; apply last_last).
    assert (HR : route (nxt false N) (rev (seq 1 (N - 1))) (N - 1) 0).
    { replace (N - 1)%nat with (1 + (N - 1) - 1)%nat at 2 by lia. apply route_left; [|lia|reflexivity]. intros k _ _. reflexivity. }
    assert (Hps : false = false -> forall k, In k (rev (seq 1 (N - 1))) -> (0 < k)%nat) by (intros _ k Hk; apply in_rev in Hk; apply in_seq in Hk; lia).
    pose proof (sites_ok false (rev (seq 1 (N - 1))) (N - 1) 0 P blk E0 Hne HR Hps HA) as Q. rewrite El in Q. exact Q.
Qed.

(** ** The loop *)
Notation loop := (dmrg_loop svd flag eigs arpack D).

Lemma settled_at d P blk E : settled d P blk E -> DAt (if negb d then 0 else N - 1)%nat P blk.
Proof. intros (HA & _). destruct d; exact HA. Qed.

Lemma loop_S n (first d : bool) failures P blk E : DAt (if d then 0 else N - 1)%nat P blk ->
  loop 0 (S n) first d failures P (blk, []) E =
  bind (sites 0 (if d then 1 else -1)%Z (dmrg_route D 0 d) P (blk, []) 0) (fun '(P, r) =>
          match r with
          | None => bind (canonical_form svd flag P (-1)) (fun P => Ok (P, E))
          | Some (B, newE) =>
              if first then loop 0 n false (negb d) failures P B newE
              else if Rltb (Rabs (newE - E)) (d_tolerance D) then Ok (P, newE)
              else if Rltb (1 / 10 ^ 14 * Rabs newE) (newE - E) then
                if (d_allow_E_growth D <=? failures)%Z then Ok (P, newE)
                else loop 0 n false (negb d) (failures + 1) P B newE
              else loop 0 n false (negb d) failures P B newE
          end).
Proof.
  intros HA. destruct (sweep_ok d P blk 0 HA) as (Hne & _). cbn [dmrg_loop]. destruct (dmrg_route D 0 d) as [|k ks]; [congruence|reflexivity].
Qed.

Lemma loop_ok n : forall failures d P blk E, settled d P blk E ->
  wp (loop 0 n false (negb d) failures P (blk, []) E) (fun '(P', E') =>
    exists d' blk', settled d' P' blk' E' /\ (exact_flag flag -> (E' <= E)%R) /\ smaller P P').
Proof.
  induction n as [|n IH]; intros failures d P blk E HS.
  - cbn [dmrg_loop wp]. exists d, blk. split; [exact HS|]. split; [intros _; lra|intros j; apply le_n].
  - pose proof (settled_at d P blk E HS) as HA. rewrite (loop_S n false (negb d) failures P blk E HA). apply wp_bind.
    destruct (sweep_ok (negb d) P blk 0 HA) as (_ & HW). apply (wp_impl _ _ _ _ HW). intros (P' & r) (blk' & e & -> & HS' & Hbel & Hsm).
    assert (HeE : exact_flag flag -> (e <= E)%R).
    { intros Hx. specialize (Hbel Hx). destruct HS as (_ & _ & HX & _). destruct (HX Hx) as (E1 & E2). rewrite E1, E2 in Hbel. lra. }
    assert (Hnow : exists d' blk', settled d' P' blk' e /\ (exact_flag flag -> (e <= E)%R) /\ smaller P P') by (exists (negb d), blk'; auto).
    assert (Hgo : forall fl, wp (loop 0 n false (negb (negb d)) fl P' (blk', []) e) (fun '(P', E') =>
      exists d' blk', settled d' P' blk' E' /\ (exact_flag flag -> (E' <= E)%R) /\ smaller P P')).
    { intros fl. apply (wp_impl _ _ _ _ (IH fl (negb d) P' blk' e HS')). intros (P2 & E2) (d2 & blk2 & A1 & A2 & A3). exists d2, blk2. split; [exact A1|]. split.
      - intros Hx. specialize (A2 Hx). specialize (HeE Hx). lra.
      - intros j. eapply Nat.le_trans; [apply A3|apply Hsm]. }
    destruct (Rltb (Rabs (e - E)) (d_tolerance D)); [exact Hnow|]. destruct (Rltb (1 / 10 ^ 14 * Rabs e) (e - E)); [|apply Hgo].
    destruct (d_allow_E_growth D <=? failures)%Z; [exact Hnow|apply Hgo].
Qed.

Lemma loop_first n P blk E0 : DAt 0 P blk ->
  wp (loop 0 (S n) true true 0 P (blk, []) E0) (fun '(P', E') =>
    exists d' blk', settled d' P' blk' E' /\ (exact_flag flag -> (E' * W P <= En P)%R) /\ smaller P P').
Proof.
  intros HA. rewrite (loop_S n true true 0 P blk E0 HA). apply wp_bind.
  destruct (sweep_ok true P blk 0 HA) as (_ & HW). apply (wp_impl _ _ _ _ HW). intros (P' & r) (blk' & e & -> & HS' & Hbel & Hsm).
  apply (wp_impl _ _ _ _ (loop_ok n 0%Z true P' blk' e HS')). intros (P2 & E2) (d2 & blk2 & A1 & A2 & A3). exists d2, blk2. split; [exact A1|]. split.
  - intros Hx. specialize (A2 Hx). specialize (Hbel Hx). pose proof (weight_nonneg ds (amp P)). nra.
  - intros j. eapply Nat.le_trans; [apply A3|apply Hsm].
Qed.

Lemma settled_next d P blk E P' r : settled d P blk E -> sites 0 (if negb d then 1 else -1)%Z (dmrg_route D 0 (negb d)) P (blk, []) 0 = Ok (P', r) ->
  exists blk' e, r = Some ((blk', []), e) /\ settled (negb d) P' blk' e /\ (exact_flag flag -> (e <= E)%R).
Proof.
  intros HS Er. pose proof (settled_at d P blk E HS) as HA. destruct (sweep_ok (negb d) P blk 0 HA) as (_ & HW). rewrite Er in HW. cbn [wp] in HW.
  destruct HW as (blk' & e & -> & HS' & Hbel & _). exists blk', e. split; [reflexivity|]. split; [exact HS'|].
  intros Hx. specialize (Hbel Hx). destruct HS as (_ & _ & HX & _). destruct (HX Hx) as (E1 & E2). rewrite E1, E2 in Hbel. lra.
Qed.

Lemma loop_more n : forall k failures d P blk E r E' r2 E2, exact_flag flag -> settled d P blk E ->
  loop 0 n false (negb d) failures P (blk, []) E = Ok (r, E') -> loop 0 (n + k) false (negb d) failures P (blk, []) E = Ok (r2, E2) -> (E2 <= E')%R.
Proof.
  induction n as [|n IH]; intros k failures d P blk E r E' r2 E2 Hx HS.
  - cbn [dmrg_loop plus]. intros Hr. apply Ok_inj' in Hr. injection Hr as _ <-. intros H2. pose proof (loop_ok k failures d P blk E HS) as HW. rewrite H2 in HW. cbn [wp] in HW.
    destruct HW as (d' & blk' & _ & Hle & _). apply Hle, Hx.
  - pose proof (settled_at d P blk E HS) as HA. cbn [plus]. rewrite !(loop_S _ false (negb d)) by exact HA.
    destruct (sites 0 (if negb d then 1 else -1)%Z (dmrg_route D 0 (negb d)) P (blk, []) 0) as [(P' & r0)|] eqn:ES; cbn [bind]; [|discriminate].
    destruct (settled_next d P blk E P' r0 HS ES) as (blk' & e & -> & HS' & Hle). rewrite (no_growth e E (Hle Hx)).
    destruct (Rltb (Rabs (e - E)) (d_tolerance D)).
    + intros H1 H2. apply Ok_inj' in H1, H2. injection H1 as _ <-. injection H2 as _ <-. lra.
    + apply (IH k failures (negb d) P' blk' e r E' r2 E2 Hx HS').
Qed.

Lemma loop_stops n : forall k failures d P blk E r E' r2 E2, exact_flag flag -> settled d P blk E ->
  loop 0 n false (negb d) failures P (blk, []) E = Ok (r, E') -> loop 0 (S n) false (negb d) failures P (blk, []) E = Ok (r2, E2) -> (Rabs (E2 - E') < d_tolerance D)%R ->
  loop 0 (S n + k) false (negb d) failures P (blk, []) E = Ok (r2, E2).
Proof.
  induction n as [|n IH]; intros k failures d P blk E r E' r2 E2 Hx HS; pose proof (settled_at d P blk E HS) as HA.
  - cbn [plus]. rewrite !(loop_S _ false (negb d)) by exact HA. intros Hr. cbn [dmrg_loop] in Hr. apply Ok_inj' in Hr. injection Hr as <- <-.
    destruct (sites 0 (if negb d then 1 else -1)%Z (dmrg_route D 0 (negb d)) P (blk, []) 0) as [(P' & r0)|] eqn:ES; cbn [bind]; [|discriminate].
    destruct (settled_next d P blk E P' r0 HS ES) as (blk' & e & -> & HS' & Hle). rewrite (no_growth e E (Hle Hx)).
    destruct (Rltb (Rabs (e - E)) (d_tolerance D)) eqn:Er; [intros ->; auto|]. intros H2 Hlt.
    cbn [dmrg_loop] in H2. apply Ok_inj' in H2. injection H2 as <- <-. apply Rltb_false in Er. lra.
  - replace (S (S n) + k)%nat with (S (S n + k)) by lia. rewrite !(loop_S _ false (negb d)) by exact HA.
    destruct (sites 0 (if negb d then 1 else -1)%Z (dmrg_route D 0 (negb d)) P (blk, []) 0) as [(P' & r0)|] eqn:ES; cbn [bind]; [|discriminate].
    destruct (settled_next d P blk E P' r0 HS ES) as (blk' & e & -> & HS' & Hle). rewrite (no_growth e E (Hle Hx)).
    destruct (Rltb (Rabs (e - E)) (d_tolerance D)) eqn:Er; [intros _ ->; auto|].
    apply (IH k failures (negb d) P' blk' e r E' r2 E2 Hx HS').
Qed.

Lemma sites_growth g dk ks : forall P B E, dmrg_sites svd flag eigs arpack (dmrg_with_growth D g) 0 dk ks P B E = sites 0 dk ks P B E.
Proof.
  induction ks as [|k ks IH]; intros P B E; [reflexivity|]. cbn [dmrg_sites Z.eqb].
  change (minimize_single_site svd flag eigs arpack (dmrg_with_growth D g) P B k dk) with (minimize_single_site svd flag eigs arpack D P B k dk).
  destruct (minimize_single_site svd flag eigs arpack D P B k dk) as [((P' & B') & e)|]; cbn [bind]; [apply IH|reflexivity].
Qed.

Lemma loop_growth g n : exact_flag flag -> forall f f' d P blk E, settled d P blk E ->
  dmrg_loop svd flag eigs arpack (dmrg_with_growth D g) 0 n false (negb d) f P (blk, []) E = loop 0 n false (negb d) f' P (blk, []) E.
Proof.
  intros Hx. induction n as [|n IH]; intros f f' d P blk E HS; [reflexivity|]. pose proof (settled_at d P blk E HS) as HA.
  cbn [dmrg_loop]. change (dmrg_route (dmrg_with_growth D g) 0 (negb d)) with (dmrg_route D 0 (negb d)).
  destruct (sweep_ok (negb d) P blk 0 HA) as (Hne & _). destruct (dmrg_route D 0 (negb d)) as [|k ks] eqn:Ek; [congruence|].
  rewrite sites_growth. rewrite <- Ek. destruct (sites 0 (if negb d then 1 else -1)%Z (dmrg_route D 0 (negb d)) P (blk, []) 0) as [(P' & r0)|] eqn:ES; cbn [bind]; [|reflexivity].
  destruct (settled_next d P blk E P' r0 HS ES) as (blk' & e & -> & HS' & Hle). rewrite (no_growth e E (Hle Hx)). cbn [dmrg_with_growth d_tolerance].
  destruct (Rltb (Rabs (e - E)) (d_tolerance D)); [reflexivity|]. apply (IH f f' (negb d) P' blk' e HS').
Qed.
End Step.
