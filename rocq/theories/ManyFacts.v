(** The local tensors computed by mps::simplify *)
From Coq Require Import Reals Lra Bool List Arith ZArith Lia Ring.
From Verif Require Import Scalar ScalarFacts RScal Tensor TensorFacts Spec MpsModel MpsFacts StateFacts StateFacts2 EnvFacts ExpectedFacts MpoSpec CanonSpec CanonModel
  TruncFacts SplitFacts CanonFacts CanonSweep CanonNorm CanonProps CanonTwo SweepModel SweepSpec SweepFacts FormModel FormSpec LFormFacts LFormValue
  SimplifySpec SimplifyModel EckartYoung SimplifyFacts SimplifyStep SimplifyPair SimplifyDouble SimplifySweep SimplifyLoop SimplifyManyModel.
Import ListNotations.
Local Open Scope K_scope.

Section Facts.
Context {RS : RScal}.
Add Ring Kring : k_ring.

Lemma proj_branch M Qk a c b i b' :
  wf M -> wf Qk -> dims M = [a; b'; c; b] -> dims Qk = [b; i; b'] ->
  (0 < a)%nat -> (0 < c)%nat -> (0 < b)%nat -> (0 < b')%nat -> (0 < i)%nat ->
  let T := permute (reshape (fold (reshape (permute M 0 3) [b * b'; c; a]%nat) 0 (reshape (permute Qk 1 2) [b * b'; i]%nat) 0) [c; a; i]) 1 2 in
  wf T /\ dims T = [c; i; a] /\
  forall x y z, (x < c)%nat -> (y < i)%nat -> (z < a)%nat ->
    get T [x; y; z] = sum b (fun u => sum b' (fun v => get M [z; v; x; u] * get Qk [u; y; v])).
Proof.
  intros HwM HwQ HM HQ Ha Hc Hb Hb' Hi T. split; [apply wf_mk|]. split; [reflexivity|].
  intros x y z Hx Hy Hz. unfold T, permute at 1. cbn [dims reshape swap_nth nth replace_nth].
  rewrite get_mk by (apply in_range_3; assumption). cbn [swap_nth nth replace_nth].
  unfold fold. cbn [dims reshape rank length]. unfold dim. cbn [remove_nth app nth length Nat.sub dims reshape].
  rewrite (get_reshape (mk _ _) _ _ [x; z; y]) by reflexivity.
  rewrite get_mk by (apply in_range_3; assumption). cbn [firstn skipn insert_nth].
  rewrite sum_merge, sum_swap. apply sum_ext. intros u Hu. apply sum_ext. intros v Hv. f_equal.
  - rewrite (get_reshape (permute M 0 3) _ _ [u; v; x; z]) by (unfold permute; cbn [dims mk]; rewrite HM; cbn; ring).
    unfold permute. rewrite HM. cbn [swap_nth nth replace_nth]. rewrite get_mk by (apply in_range_4; assumption). reflexivity.
  - rewrite (get_reshape (permute Qk 1 2) _ _ [u; v; y]) by (unfold permute; cbn [dims mk]; rewrite HQ; cbn; ring).
    unfold permute. rewrite HQ. cbn [swap_nth nth replace_nth]. rewrite get_mk by (apply in_range_3; assumption). reflexivity.
Qed.

Lemma get_ones1111 : get ones1111 [0; 0; 0; 0]%nat = 1.
Proof. reflexivity. Qed.

(** The local tensor, for open boundary conditions *)
Lemma next_projector_value Ml Mr Qk a b i b' c :
  wf Qk -> dims Qk = [b; i; b'] -> wf (seg Ml) -> dims (seg Ml) = [1; 1; a; b]%nat -> wf (seg Mr) -> dims (seg Mr) = [c; b'; 1; 1]%nat ->
  (0 < a)%nat -> (0 < c)%nat -> (0 < b)%nat -> (0 < b')%nat -> (0 < i)%nat ->
  let T := next_projector Ml Mr Qk in
  wf T /\ dims T = [a; i; c] /\
  forall x y z, (x < a)%nat -> (y < i)%nat -> (z < c)%nat ->
    get T [x; y; z] = sum b (fun u => sum b' (fun v => get (seg Ml) [0; 0; x; u]%nat * get Qk [u; y; v] * get (seg Mr) [z; v; 0; 0]%nat)).
Proof.
  intros HwQ HQ HwL HL HwR HR Ha Hc Hb Hb' Hi T. unfold T, next_projector, seg in *.
  destruct (is_empty Mr) eqn:ER, (is_empty Ml) eqn:EL.
  - cbn in HL, HR. injection HL as <- <-. injection HR as <- <-. split; [exact HwQ|]. split; [exact HQ|].
    intros x y z Hx Hy Hz. assert (x = 0 /\ z = 0)%nat as (-> & ->) by lia. cbn [sum]. rewrite !get_ones1111. ring.
  - cbn in HR. injection HR as <- <-.
    destruct (proj_branch Ml Qk 1 a b i 1 HwL HwQ HL HQ) as (H1 & H2 & H3); try lia.
    unfold dim. rewrite HL, HQ. cbn [nth]. split; [exact H1|]. split; [exact H2|]. intros x y z Hx Hy Hz.
    rewrite H3 by lia. apply sum_ext. intros u Hu. apply sum_ext. intros v Hv.
    assert (z = 0 /\ v = 0)%nat as (-> & ->) by lia. rewrite get_ones1111. ring.
  - cbn in HL. injection HL as <- <-.
    destruct (proj_branch Mr Qk c 1 1 i b' HwR HwQ HR HQ) as (H1 & H2 & H3); try lia.
    unfold dim. rewrite HR, HQ. cbn [nth]. split; [exact H1|]. split; [exact H2|]. intros x y z Hx Hy Hz.
    rewrite H3 by lia. apply sum_ext. intros u Hu. apply sum_ext. intros v Hv.
    assert (x = 0 /\ u = 0)%nat as (-> & ->) by lia. rewrite get_ones1111. ring.
  - unfold dim. rewrite HL, HQ, HR. cbn [nth]. split; [apply wf_mk|]. split; [reflexivity|].
    intros x y z Hx Hy Hz. unfold permute at 1. cbn [dims reshape swap_nth nth replace_nth].
    rewrite get_mk by (apply in_range_3; assumption). cbn [swap_nth nth replace_nth].
    unfold fold at 1. cbn [dims reshape rank length]. unfold dim. cbn [remove_nth app nth length Nat.sub dims reshape].
    rewrite (get_reshape (mk _ _) _ _ [y; x; z]) by reflexivity.
    rewrite get_mk by (apply in_range_3; assumption). cbn [firstn skipn insert_nth].
    rewrite Nat.mul_1_r, Nat.mul_1_r. symmetry. rewrite sum_swap. apply sum_ext. intros v Hv.
    rewrite (get_reshape (fold Qk 0 Ml 3) _ _ [y; v; 0; 0; x]%nat)
      by (unfold fold; cbn [dims mk]; rewrite HQ, HL; cbn; ring).
    rewrite (get_reshape (permute (permute Mr 2 3) 0 2) _ _ [0; v; z; 0]%nat)
      by (unfold permute; cbn [dims mk]; rewrite HR; cbn; ring).
    unfold fold, rank, dim. rewrite HQ, HL. cbn [remove_nth app nth length Nat.sub].
    rewrite get_mk by (apply in_range_5; lia). cbn [firstn skipn insert_nth].
    unfold permute. rewrite HR. cbn [dims mk swap_nth nth replace_nth].
    rewrite get_mk by (apply in_range_4; lia). cbn [swap_nth nth replace_nth]. rewrite get_mk by (apply in_range_4; lia).
    cbn [swap_nth nth replace_nth]. rewrite sum_mul_r. apply sum_ext. intros u Hu. ring.
Qed.

(** ** Scalar products as functions of the tensors in the middle *)
Lemma end_unique b2 q la ca lb cb : pdims b2 = pdims q -> linked la b2 1 -> linked ca b2 1 -> linked lb q 1 -> linked cb q 1 -> la = ca /\ lb = cb.
Proof.
  intros E Q1 H1 Q2 H2. destruct q as [|q0 q1].
  - destruct b2; [|discriminate E]. cbn in *. split; congruence.
  - destruct b2 as [|b0 b2]; [discriminate E|].
    split; [refine (linked_left_unique _ _ (b0 :: b2) _ _ Q1 H1)|refine (linked_left_unique _ _ (q0 :: q1) _ _ Q2 H2)]; discriminate.
Qed.

Lemma env_block b1 M b2 p N q Ml Mr ra ca rb cb :
  lenv b1 p Ml -> renv b2 q Mr -> linked 1 b1 ra -> linked ra M ca -> linked ca b2 1 -> linked 1 p rb -> linked rb N cb -> linked cb q 1 ->
  pdims M = pdims N -> N <> [] ->
  (wf (seg Ml) /\ dims (seg Ml) = [1; 1; ra; rb]%nat /\ wf (seg Mr) /\ dims (seg Mr) = [ca; cb; 1; 1]%nat) /\
  ((0 < ra)%nat /\ (0 < rb)%nat /\ (0 < ca)%nat /\ (0 < cb)%nat) /\
  inner (pdims (p ++ N ++ q)) (amp (b1 ++ M ++ b2)) (amp (p ++ N ++ q)) =
  sumcfg (pdims N) (fun is => sum ra (fun x => sum ca (fun z => kconj (chain M is x z) *
    sum rb (fun u => sum cb (fun v => get (seg Ml) [0; 0; x; u]%nat * chain N is u v * get (seg Mr) [z; v; 0; 0]%nat))))).
Proof.
  intros (D1 & _ & ra' & rb' & B1 & B2 & EL) (D2 & _ & la & lb & Q0 & Q0' & Q1 & Q2 & ER) Hb1 HM Hb2 Hp HN Hq Hd Hne.
  assert (ra' = ra) as -> by (eapply linked_right_unique; eauto). assert (rb' = rb) as -> by (eapply linked_right_unique; eauto).
  destruct (end_unique b2 q la ca lb cb D2 Q1 Hb2 Q2 Hq) as (-> & ->).
  pose proof EL as (WL & HdL & _ & _ & P1 & P2 & GL). pose proof ER as (WR & HdR & P3 & P4 & _ & _ & GR).
  split; [auto|]. split; [auto|].
  assert (HneM : M <> []) by (destruct N; [congruence|]; intros ->; discriminate Hd).
  rewrite <- (TM_inner (b1 ++ M ++ b2) (p ++ N ++ q)).
  2: { apply linked_app. exists ra. split; [exact Hb1|]. apply linked_app. eauto. }
  2: { apply linked_app. exists rb. split; [exact Hp|]. apply linked_app. eauto. }
  2: { intros E. apply app_eq_nil in E. destruct E as (_ & E). apply app_eq_nil in E. tauto. }
  2: { intros E. apply app_eq_nil in E. destruct E as (_ & E). apply app_eq_nil in E. tauto. }
  2: { rewrite !pdims_app. congruence. }
  rewrite (TM_mid b1 M b2 p N q ra rb ca cb) by assumption.
  rewrite <- sumcfg_sum_swap. apply sumcfg_ext. intros is _.
  transitivity (sum rb (fun y => sum cb (fun w => sum ra (fun x => sum ca (fun z => kconj (chain M is x z) * (get (seg Ml) [0; 0; x; y]%nat * chain N is y w * get (seg Mr) [z; w; 0; 0]%nat)))))).
  { apply sum_ext; intros y Hy. apply sum_ext; intros w Hw. rewrite sum_mul_r. apply sum_ext; intros x Hx. rewrite sum_mul_r. apply sum_ext; intros z Hz.
    rewrite GL, GR by (try assumption; lia). ring. }
  rewrite (sum_ext rb _ (fun y => sum ra (fun x => sum ca (fun z => sum cb (fun w => kconj (chain M is x z) * (get (seg Ml) [0; 0; x; y]%nat * chain N is y w * get (seg Mr) [z; w; 0; 0]%nat)))))).
  2: { intros y _. rewrite sum_swap. apply sum_ext; intros x _. apply sum_swap. }
  rewrite sum_swap. apply sum_ext; intros x _. rewrite sum_swap. apply sum_ext; intros z _.
  rewrite sum_mul_l. apply sum_ext; intros y _. symmetry. apply sum_mul_l.
Qed.

Variables (ws : list K) (bras : list mps) (ds : list nat).
Hypothesis Hg : good_bras ws bras ds.
Notation bra := (bra bras).

Lemma split_site k (P : mps) : (k < length P)%nat -> P = firstn k P ++ [site P k] ++ skipn (S k) P.
Proof. intros Hk. rewrite <- (firstn_skipn k P) at 1. f_equal. apply skipn_site. exact Hk. Qed.

Lemma site_term k P i Ml Mr : open_mps P -> pdims P = ds -> (k < length P)%nat -> (i < length bras)%nat ->
  lenv (firstn k P) (firstn k (bra i)) Ml -> renv (skipn (S k) P) (skipn (S k) (bra i)) Mr ->
  let T := next_projector Ml Mr (site (bra i) k) in
  wf T /\ dims T = dims (site P k) /\
  forall X, wf X -> dims X = dims (site P k) ->
    inner ds (amp (replace_nth k X P)) (amp (bra i)) = sumcfg (dims X) (fun x => kconj (get X x) * get T x).
Proof.
  intros Ho Hpd Hk Hi HL HR T. pose proof Ho as (_ & HlP).
  destruct (bra_ok ws bras ds Hg i Hi) as (Hbl & Hbn & Hbd). pose proof (bra_len ws bras ds Hg i Hi) as Hlen.
  assert (Hkb : (k < length (bra i))%nat) by (rewrite Hlen, <- Hpd, length_pdims; exact Hk).
  destruct (linked_split1 1 P 1 k HlP Hk) as (m & d & c & H1 & H2 & H3 & H4 & H5 & H6).
  destruct (linked_split1 1 (bra i) 1 k Hbl Hkb) as (b & d' & b' & B1 & B2 & B3 & B4 & B5 & B6).
  assert (d' = d) as ->.
  { assert (E : nth k (pdims (bra i)) 0%nat = nth k (pdims P) 0%nat) by congruence. rewrite !nth_pdims in E by assumption.
    unfold dim in E. rewrite H3, B3 in E. exact E. }
  set (A := site (bra i) k) in *.
  assert (HX : forall X, wf X -> dims X = dims (site P k) -> 
    (wf (seg Ml) /\ dims (seg Ml) = [1; 1; m; b]%nat /\ wf (seg Mr) /\ dims (seg Mr) = [c; b'; 1; 1]%nat) /\
    ((0 < m)%nat /\ (0 < b)%nat /\ (0 < c)%nat /\ (0 < b')%nat) /\
    inner ds (amp (replace_nth k X P)) (amp (bra i)) = sum d (fun j => sum m (fun x => sum c (fun z => kconj (get X [x; j; z]) *
      sum b (fun u => sum b' (fun v => get (seg Ml) [0; 0; x; u]%nat * get A [u; j; v] * get (seg Mr) [z; v; 0; 0]%nat)))))).
  { intros X HwX HdX. rewrite H3 in HdX.
    destruct (env_block (firstn k P) [X] (skipn (S k) P) (firstn k (bra i)) [A] (skipn (S k) (bra i)) Ml Mr m c b b') as (E1 & E2 & E3); try assumption.
    - cbn. exists d, c. repeat split; auto.
    - cbn. exists d, b'. repeat split; auto.
    - cbn. unfold dim. rewrite HdX, B3. reflexivity.
    - discriminate.
    - split; [exact E1|]. split; [exact E2|]. rewrite (replace_split k X P Hk). rewrite <- Hbd at 1.
      rewrite (split_site k (bra i) Hkb). fold A. change (X :: skipn (S k) P) with ([X] ++ skipn (S k) P). rewrite E3.
      replace (pdims [A]) with [d] by (cbn; unfold dim; rewrite B3; reflexivity). cbn [sumcfg].
      apply sum_ext; intros j _. apply sum_ext; intros x Hx. apply sum_ext; intros z Hz. rewrite (chain_one X j x z m d c HdX Hz). f_equal.
      apply sum_ext; intros u _. apply sum_ext; intros v Hv. rewrite (chain_one A j u v b d b' B3 Hv). reflexivity. }
  destruct (HX (site P k) H4 eq_refl) as ((W1 & W2 & W3 & W4) & (P1 & P2 & P3 & P4) & _).
  destruct (next_projector_value Ml Mr A m b d b' c) as (T1 & T2 & T3); try assumption.
  fold T in T1, T2, T3. split; [exact T1|]. split; [congruence|]. intros X HwX HdX. destruct (HX X HwX HdX) as (_ & _ & E). rewrite E.
  rewrite HdX, H3, sumcfg_3. rewrite sum_swap. apply sum_ext; intros x Hx. apply sum_ext; intros j Hj. apply sum_ext; intros z Hz.
  rewrite T3 by assumption. reflexivity.
Qed.

(** Adding up the terms *)
Lemma combine1 k P T (t : nat -> tensor) : open_mps P -> pdims P = ds -> (k < length P)%nat ->
  (forall x, in_range (dims (site P k)) x -> get T x = sum (length bras) (fun i => nth i ws 0 * get (t i) x)) ->
  (forall i, (i < length bras)%nat -> forall X, wf X -> dims X = dims (site P k) ->
    inner ds (amp (replace_nth k X P)) (amp (bra i)) = sumcfg (dims X) (fun x => kconj (get X x) * get (t i) x)) ->
  repr1 ws bras k P (tconj T).
Proof.
  intros Ho Hpd Hk HT Ht X HwX HdX. destruct (open_replace P k X Ho Hk HwX HdX) as (_ & E). unfold overlap, dot.
  rewrite E, Hpd.
  rewrite (sum_ext _ _ (fun i => sumcfg (dims X) (fun x => kconj (nth i ws 0) * (get X x * kconj (get (t i) x))))).
  - rewrite <- sumcfg_sum_swap. apply sumcfg_ext. intros x Hx. rewrite get_tconj, HT by (rewrite <- HdX; exact Hx).
    rewrite sum_conj, sum_mul_r. apply sum_ext; intros i _. rewrite kconj_mul. ring.
  - intros i Hi. change (nth i bras []) with (bra i). rewrite <- inner_conj, (Ht i Hi X HwX HdX), sumcfg_conj, sumcfg_mul_l.
    apply sumcfg_ext. intros x _. rewrite kconj_mul, kconj_inv. ring.
Qed.

Lemma projector_sum_value n (f : nat -> tensor) dd : (0 < n)%nat -> (forall i, (i < n)%nat -> wf (f i) /\ dims (f i) = dd) ->
  let T := fold_left (fun out i => tadd out (tscale (nth i ws 0%K) (f i))) (seq 1 (n - 1)) (tscale (nth 0 ws 0%K) (f 0%nat)) in
  wf T /\ dims T = dd /\ forall x, in_range dd x -> get T x = sum n (fun i => nth i ws 0 * get (f i) x).
Proof.
  induction n as [|n IH]; [lia|]. intros _ H. destruct n as [|n].
  - destruct (H 0%nat ltac:(lia)) as (Hw & Hd). cbn [Nat.sub seq fold_left sum]. split; [apply wf_tscale; exact Hw|]. split; [exact Hd|]. intros x Hx.
    rewrite get_tscale by (try assumption; congruence). ring.
  - destruct IH as (H1 & H2 & H3); [lia|intros i Hi; apply H; lia|].
    destruct (H (S n) ltac:(lia)) as (Hw & Hd).
    replace (S (S n) - 1)%nat with (S (S n - 1)) by lia. rewrite seq_S, fold_left_app. cbn [fold_left]. replace (1 + (S n - 1))%nat with (S n) by lia.
    set (T0 := fold_left _ _ _) in *. split; [apply wf_tadd; [exact H1|apply wf_tscale; exact Hw|change (dims (tscale (nth (S n) ws 0) (f (S n)))) with (dims (f (S n))); congruence]|].
    split; [exact H2|]. intros x Hx. cbn [sum].
    rewrite get_tadd; [|exact H1|apply wf_tscale; exact Hw|change (dims (tscale (nth (S n) ws 0) (f (S n)))) with (dims (f (S n))); congruence|rewrite H2; exact Hx].
    rewrite H3 by exact Hx. rewrite get_tscale by (try assumption; congruence). reflexivity.
Qed.

(** ** Two sites *)
Lemma pair_block X Y b i m j b' : wf X -> wf Y -> dims X = [b; i; m] -> dims Y = [m; j; b'] ->
  (0 < b)%nat -> (0 < i)%nat -> (0 < j)%nat -> (0 < b')%nat ->
  let G := fold X (rank X - 1) Y 0 in
  dims G = [b; i; j; b'] /\ wf (reshape G [b; (i * j)%nat; b']) /\
  forall u y z v, (u < b)%nat -> (y < i)%nat -> (z < j)%nat -> (v < b')%nat ->
    get (reshape G [b; (i * j)%nat; b']) [u; (y + i * z)%nat; v] = chain [X; Y] [y; z] u v.
Proof.
  intros HwX HwY HX HY Hb Hi Hj Hb' G.
  assert (HG : dims G = [b; i; j; b']) by (unfold G, fold, rank; cbn [dims mk]; rewrite HX, HY; reflexivity).
  split; [exact HG|]. split.
  - apply wf_reshape; [apply wf_mk|]. rewrite HG. cbn [nprod fold_right]. unfold nprod. cbn [fold_right]. ring.
  - intros u y z v Hu Hy Hz Hv. rewrite (get_reshape G _ _ [u; y; z; v]) by (rewrite HG; cbn; ring).
    unfold G, fold, rank, dim. rewrite HX, HY. cbn [length Nat.sub remove_nth app nth]. rewrite get_mk by (apply in_range_4; assumption).
    cbn [firstn skipn insert_nth]. rewrite (chain_two X Y y z u v b i m j b' HX HY Hv). reflexivity.
Qed.

Lemma merge_lt y i z j : (y < i)%nat -> (z < j)%nat -> (y + i * z < i * j)%nat.
Proof. intros. nia. Qed.

Lemma pair_term k P i Ml Mr a di m dj c : open_mps P -> pdims P = ds -> (S k < length P)%nat -> (i < length bras)%nat ->
  lenv (firstn k P) (firstn k (bra i)) Ml -> renv (skipn (S (S k)) P) (skipn (S (S k)) (bra i)) Mr ->
  dims (site P k) = [a; di; m] -> dims (site P (S k)) = [m; dj; c] ->
  let G := fold (site (bra i) k) (rank (site (bra i) k) - 1) (site (bra i) (S k)) 0 in
  let T := next_projector Ml Mr (reshape G [dim G 0; (dim G 1 * dim G 2)%nat; dim G 3]) in
  dim G 1 = di /\ dim G 2 = dj /\ wf T /\ dims T = [a; (di * dj)%nat; c] /\
  forall A B b, (0 < b)%nat -> wf A -> dims A = [a; di; b] -> wf B -> dims B = [b; dj; c] ->
    inner ds (amp (put2 k P A B)) (amp (bra i)) = sum4 a di dj c (fun x y z w => kconj (joined A B x y z w) * get T [x; (y + di * z)%nat; w]).
Proof.
  intros Ho Hpd Hk Hi HL HR HdP1 HdP2 G T. pose proof Ho as (_ & HlP).
  destruct (bra_ok ws bras ds Hg i Hi) as (Hbl & Hbn & Hbd). pose proof (bra_len ws bras ds Hg i Hi) as Hlen.
  assert (Hkb : (S k < length (bra i))%nat) by (rewrite Hlen, <- Hpd, length_pdims; exact Hk).
  destruct (linked_split2 1 P 1 k HlP ltac:(lia) Hk) as (a' & di' & m' & dj' & c' & L1 & L2 & L3 & L4 & L5 & L6 & L7 & L8 & L9 & L10 & L11).
  rewrite HdP1 in L4. injection L4 as <- <- <-. rewrite HdP2 in L8. injection L8 as <- <-.
  destruct (linked_split2 1 (bra i) 1 k Hbl ltac:(lia) Hkb) as (b & di' & mb & dj' & b' & B1 & B2 & B3 & B4 & B5 & B6 & B7 & B8 & B9 & B10 & B11).
  assert (di' = di /\ dj' = dj) as (-> & ->).
  { assert (E : forall q, nth q (pdims (bra i)) 0%nat = nth q (pdims P) 0%nat) by (intros; congruence).
    pose proof (E k) as E1. pose proof (E (S k)) as E2. rewrite !nth_pdims in E1, E2 by lia.
    unfold dim in E1, E2. rewrite B4, HdP1 in E1. rewrite B8, HdP2 in E2. split; [exact E1|exact E2]. }
  set (X := site (bra i) k) in *. set (Y := site (bra i) (S k)) in *.
  destruct (pair_block X Y b di mb dj b' B5 B9 B4 B8) as (G1 & G2 & G3); try assumption. fold G in G1, G2, G3.
  assert (Gd : dim G 0 = b /\ dim G 1 = di /\ dim G 2 = dj /\ dim G 3 = b') by (unfold dim; rewrite G1; auto).
  destruct Gd as (E0 & E1 & E2 & E3). unfold T. rewrite E0, E1, E2, E3. clear T. set (T := next_projector Ml Mr _).
  split; [reflexivity|]. split; [reflexivity|].
  assert (HX : forall A B q, (0 < q)%nat -> wf A -> dims A = [a; di; q] -> wf B -> dims B = [q; dj; c] -> 
    (wf (seg Ml) /\ dims (seg Ml) = [1; 1; a; b]%nat /\ wf (seg Mr) /\ dims (seg Mr) = [c; b'; 1; 1]%nat) /\
    ((0 < a)%nat /\ (0 < b)%nat /\ (0 < c)%nat /\ (0 < b')%nat) /\
    inner ds (amp (put2 k P A B)) (amp (bra i)) = sum di (fun y => sum dj (fun z => sum a (fun x => sum c (fun w => kconj (joined A B x y z w) *
      sum b (fun u => sum b' (fun v => get (seg Ml) [0; 0; x; u]%nat * chain [X; Y] [y; z] u v * get (seg Mr) [w; v; 0; 0]%nat))))))).
  { intros A B q Hq HwA HdA HwB HdB.
    destruct (env_block (firstn k P) [A; B] (skipn (S (S k)) P) (firstn k (bra i)) [X; Y] (skipn (S (S k)) (bra i)) Ml Mr a c b b') as (F1 & F2 & F3); try assumption.
    - cbn. exists di, q. repeat (split; [auto|]). exists dj, c. repeat split; auto.
    - cbn. exists di, mb. repeat (split; [auto|]). exists dj, b'. repeat split; auto.
    - cbn. unfold dim. rewrite HdA, HdB, B4, B8. reflexivity.
    - discriminate.
    - split; [exact F1|]. split; [exact F2|]. unfold put2. rewrite <- Hbd at 1. rewrite (split2 (bra i) k Hkb). fold X Y.
      change (A :: B :: skipn (S (S k)) P) with ([A; B] ++ skipn (S (S k)) P). change (X :: Y :: skipn (S (S k)) (bra i)) with ([X; Y] ++ skipn (S (S k)) (bra i)).
      rewrite F3. replace (pdims [X; Y]) with [di; dj] by (cbn; unfold dim; rewrite B4, B8; reflexivity). cbn [sumcfg].
      apply sum_ext; intros y _. apply sum_ext; intros z _. apply sum_ext; intros x Hx. apply sum_ext; intros w Hw.
      rewrite (chain_two A B y z x w a di q dj c HdA HdB Hw). unfold joined. replace (dim A 2) with q by (unfold dim; rewrite HdA; reflexivity). reflexivity. }
  destruct (HX (site P k) (site P (S k)) m L7 L5 HdP1 L9 HdP2) as ((W1 & W2 & W3 & W4) & (P1 & P2 & P3 & P4) & _).
  destruct (next_projector_value Ml Mr (reshape G [b; (di * dj)%nat; b']) a b (di * dj) b' c) as (T1 & T2 & T3); try assumption; [reflexivity|nia|].
  fold T in T1, T2, T3. split; [exact T1|]. split; [exact T2|]. intros A B q Hq HwA HdA HwB HdB. destruct (HX A B q Hq HwA HdA HwB HdB) as (_ & _ & E). rewrite E.
  unfold sum4.
  rewrite (sum_ext di _ (fun y => sum a (fun x => sum dj (fun z => sum c (fun w => kconj (joined A B x y z w) *
      sum b (fun u => sum b' (fun v => get (seg Ml) [0; 0; x; u]%nat * chain [X; Y] [y; z] u v * get (seg Mr) [w; v; 0; 0]%nat))))))) by (intros; apply sum_swap).
  rewrite sum_swap. apply sum_ext; intros x Hx. apply sum_ext; intros y Hy. apply sum_ext; intros z Hz. apply sum_ext; intros w Hw. f_equal.
  rewrite T3 by (try assumption; apply merge_lt; assumption). apply sum_ext; intros u Hu. apply sum_ext; intros v Hv. rewrite G3 by assumption. reflexivity.
Qed.

Lemma combine2 k P T (t : nat -> tensor) a i m j c : open_mps P -> pdims P = ds -> (S k < length P)%nat ->
  dims (site P k) = [a; i; m] -> dims (site P (S k)) = [m; j; c] ->
  wf T -> dims T = [a; i; j; c] ->
  (forall x y z w, (x < a)%nat -> (y < i)%nat -> (z < j)%nat -> (w < c)%nat -> get T [x; y; z; w] = sum (length bras) (fun n => nth n ws 0 * get (t n) [x; (y + i * z)%nat; w])) ->
  (forall n, (n < length bras)%nat -> forall A B b, (0 < b)%nat -> wf A -> dims A = [a; i; b] -> wf B -> dims B = [b; j; c] ->
    inner ds (amp (put2 k P A B)) (amp (bra n)) = sum4 a i j c (fun x y z w => kconj (joined A B x y z w) * get (t n) [x; (y + i * z)%nat; w])) ->
  repr2 ws bras k P (tconj T).
Proof.
  intros Ho Hpd Hk HP1 HP2 HwT HdT HT Ht.
  destruct (linked_split2 1 P 1 k (proj2 Ho) ltac:(lia) Hk) as (a' & di' & m' & dj' & c' & L1 & L2 & L3 & L4 & L5 & L6 & L7 & L8 & L9 & L10 & L11).
  rewrite HP1 in L4. injection L4 as <- <- <-. rewrite HP2 in L8. injection L8 as <- <-.
  exists a, i, m, j, c. split; [apply wf_tconj; exact HwT|]. split; [exact HdT|]. repeat (split; [assumption|]).
  intros A B b Hb HwA HdA HwB HdB. destruct (put2_fits ds k P A B a i m j c b Ho Hpd Hk HP1 HP2 Hb HwA HdA HwB HdB) as (_ & E).
  unfold overlap. rewrite E.
  rewrite (sum_ext _ _ (fun n => sum4 a i j c (fun x y z w => kconj (nth n ws 0) * (joined A B x y z w * kconj (get (t n) [x; (y + i * z)%nat; w]))))).
  - symmetry. unfold sum4. rewrite sum_swap. apply sum_ext; intros x Hx. rewrite sum_swap. apply sum_ext; intros y Hy. rewrite sum_swap. apply sum_ext; intros z Hz.
    rewrite sum_swap. apply sum_ext; intros w Hw. symmetry. rewrite get_tconj, HT by assumption. rewrite sum_conj, sum_mul_r.
    apply sum_ext; intros n _. rewrite kconj_mul. ring.
  - intros n Hn. change (nth n bras []) with (bra n). rewrite <- inner_conj, (Ht n Hn A B b) by assumption. rewrite sum4_conj, <- sum4_mul_l.
    apply sum4_ext. intros. rewrite kconj_mul, kconj_inv. ring.
Qed.
End Facts.
