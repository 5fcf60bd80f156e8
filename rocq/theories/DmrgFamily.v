(** * class DMRG: the local problem is the restriction of the Hamiltonian *)
From Coq Require Import Reals Lra Bool List Arith ZArith Lia Ring Setoid.
From Verif Require Import Scalar ScalarFacts RScal Tensor TensorFacts Spec MpsModel MpsFacts EnvFacts MpsProps ExpectedFacts CanonSpec CanonModel StateFacts StateFacts2 CanonNorm CanonSweep CanonProps
  SimplifySpec SimplifyFacts SimplifyStep QFormFacts QFormValue SparseFacts
  HamSpec HamModel HamFacts HamConst TrotterRun MinimizeSpec MinLocal MinStep DmrgModel DmrgSplit DmrgBlocks DmrgLocal DmrgSpec.
From Verif Require Properties_Canon2.
Import ListNotations.
Local Open Scope K_scope.

Section Family.
Context {RS : RScal}.
Add Ring KringF : k_ring.
Variable D : dmrg.
Let H := d_H D.
Notation N := (h_size H).
Hypothesis HV : valid_dmrg D.
Hypothesis HP0 : d_P0 D = [].
Notation segd s n := (map (h_dim H) (seq s n)).
Notation ds := (h_dims H).
Notation RP := (RP D).
Notation LP := (LP D).

Lemma V_ok : ham_ok H. Proof. apply HV. Qed.
Lemma V_loc : locals_set H. Proof. apply HV. Qed.
Lemma V_h1 : forall k i j, (k < N)%nat -> (i < h_dim H k)%nat -> (j < h_dim H k)%nat -> loc H k i j = kconj (loc H k j i).
Proof. apply HV. Qed.
Lemma V_h2 : forall k i j p q, (S k < N)%nat -> (i < h_dim H k)%nat -> (j < h_dim H k)%nat -> (p < h_dim H (S k))%nat -> (q < h_dim H (S k))%nat ->
  sum (dep H k) (fun m => lft H k m i j * rgt H k m p q) = kconj (sum (dep H k) (fun m => lft H k m j i * rgt H k m q p)).
Proof. apply HV. Qed.
Lemma V_N : (2 <= N)%nat. Proof. apply HV. Qed.
Lemma V_per : h_periodic H = false. Proof. apply HV. Qed.
Lemma V_nQ : d_nQ D = 0%nat. Proof. apply HV. Qed.

Lemma parts' P k : open_mps P -> pdims P = ds -> (k < N)%nat -> exists a d c,
  linked 1 (firstn k P) a /\ linked c (skipn (S k) P) 1 /\ dims (site P k) = [a; d; c] /\ wf (site P k) /\ (0 < a)%nat /\ (0 < d)%nat /\ (0 < c)%nat /\
  d = h_dim H k /\ pdims (firstn k P) = segd 0 k /\ pdims (skipn (S k) P) = segd (S k) (N - S k) /\ length P = N.
Proof. exact (parts D V_N V_nQ P k). Qed.

(** ** The state of the algorithm at the site k *)
Definition Blk (k : nat) (P : mps) (blk : list tensor) : Prop :=
  length blk = N /\ (forall j, (j < k)%nat -> Lblk D P j (nth j blk empty)) /\ (forall j, (k < j < N)%nat -> Rblk D P j (nth j blk empty)).
Definition DAt (k : nat) (P : mps) (blk : list tensor) : Prop :=
  open_mps P /\ pdims P = ds /\ (k < N)%nat /\ canonical_at k P /\ Blk k P blk.

Lemma at_len k P blk : DAt k P blk -> length P = N.
Proof. intros (_ & Hpd & _). rewrite <- length_pdims, Hpd. apply h_dims_length. Qed.

(** <A|H|B> *)
Definition hsand (A B : mps) : K := sumcfg ds (fun x => sumcfg ds (fun y => kconj (amp A x) * ham_op H x y * amp B y)).

Lemma hsand_Rc A B : open_mps A -> open_mps B -> pdims A = ds -> pdims B = ds -> hsand A B = Rc A B (hseg H 0) 0 0.
Proof.
  intros OA OB PA PB. unfold hsand, Rc. rewrite PA, PB. apply sumcfg_ext. intros x Hx. apply sumcfg_ext. intros y Hy.
  rewrite !Properties_Canon2.amp_open1 by assumption. rewrite ham_hseg by (try apply V_per; try (rewrite (in_range_length _ _ Hx); apply h_dims_length); rewrite (in_range_length _ _ Hy); apply h_dims_length). reflexivity.
Qed.

(** the coefficient of the local problem *)
Definition core (k : nat) (P : mps) (i j z z' b b' : nat) : K :=
  LP k (firstn k P) i j z z' * delta b b' + delta z z' * (RP k (skipn (S k) P) i j b b' + loc H k i j * delta b b').

Lemma local_value k P A B a d c : open_mps P -> pdims P = ds -> (k < N)%nat -> canonical_at k P -> dims (site P k) = [a; d; c] ->
  wf A -> wf B -> dims A = [a; d; c] -> dims B = [a; d; c] ->
  hsand (replace_nth k A P) (replace_nth k B P) =
    sum a (fun z => sum a (fun z' => sum d (fun i => sum d (fun j => sum c (fun b => sum c (fun b' =>
      kconj (get A [z; i; b]) * core k P i j z z' b b' * get B [z'; j; b'])))))).
Proof.
  intros Ho Hpd Hk (Cl & Cr) Hs HwA HwB HA HB.
  destruct (parts' P k Ho Hpd Hk) as (a0 & d0 & c0 & L1 & L2 & Hs0 & Hw & Ha & Hd & Hc & Ed & Ep & Eq & Hl).
  rewrite Hs in Hs0. injection Hs0 as <- <- <-.
  destruct (open_replace P k A Ho ltac:(lia) HwA ltac:(congruence)) as (OA & PA). destruct (open_replace P k B Ho ltac:(lia) HwB ltac:(congruence)) as (OB & PB).
  rewrite hsand_Rc by (assumption || congruence). rewrite !(replace_split k) by lia.
  set (p := firstn k P) in *. set (q := skipn (S k) P) in *.
  assert (Hlp : length p = k) by (unfold p; rewrite firstn_length; lia).
  assert (LA : linked a (A :: q) 1) by (exists d, c; auto). assert (LB : linked a (B :: q) 1) by (exists d, c; auto).
  assert (Hiso1 : forall z z', (z < a)%nat -> (z' < a)%nat -> Lc p id_op z z' = delta z z') by (apply (first_iso D V_N V_nQ); [exact L1|exact Cl|lia]).
  assert (Hiso2 : forall z z', (z < c)%nat -> (z' < c)%nat -> Rc q q id_op z z' = delta z z') by (apply (rest_iso D V_N V_nQ); [exact L2|exact Cr]).
  set (G := fun (h1 h2 : list nat -> list nat -> K) (u v : list nat) => h1 (firstn k u) (firstn k v) * h2 (skipn k u) (skipn k v)).
  assert (HG : forall h1 h2 x y x' y', length x = k -> length x' = k -> G h1 h2 (x ++ y) (x' ++ y') = h1 x x' * h2 y y').
  { intros h1 h2 x y x' y' E1 E2. unfold G. rewrite !firstn_app, !skipn_app, E1, E2, Nat.sub_diag. cbn [firstn skipn]. rewrite !app_nil_r.
    rewrite !firstn_all2, !skipn_all2 by lia. reflexivity. }
  set (ho := fun (o : nat -> nat -> K) (u v : list nat) => match u, v with i :: y, j :: y' => o i j * id_op y y' | _, _ => 0 end).
  rewrite (Rc_ext _ _ (hseg H 0) (fun u v => G (hseg H 0) (ho delta) u v + (sum (dep H (k - 1)) (fun m => G (lastop H 0 m) (ho (rgt H (k - 1) m)) u v) + G id_op (hseg H k) u v))).
  - assert (Hpl : forall x, in_range (pdims p) x -> length x = k) by (intros x Hx; rewrite (in_range_length _ _ Hx), length_pdims; exact Hlp).
    rewrite Rc_add, Rc_add, Rc_sum.
    rewrite (pair_app p (A :: q) (B :: q) a _ (hseg H 0) (ho delta)) by (try assumption; intros; apply HG; auto).
    rewrite (sum_ext (dep H (k - 1)) _ (fun m => sum a (fun z => sum a (fun z' => Lc p (lastop H 0 m) z z' * Rc (A :: q) (B :: q) (ho (rgt H (k - 1) m)) z z')))).
    2:{ intros m Hm. apply (pair_app p (A :: q) (B :: q) a _ (lastop H 0 m) (ho (rgt H (k - 1) m))); try assumption. intros; apply HG; auto. }
    rewrite (pair_app p (A :: q) (B :: q) a _ id_op (hseg H k)) by (try assumption; intros; apply HG; auto).
    rewrite (sum_swap (dep H (k - 1)) a), <- !sum_add. apply sum_ext. intros z Hz.
    rewrite (sum_swap (dep H (k - 1)) a), <- !sum_add. apply sum_ext. intros z' Hz'.
    assert (Ho1 : forall o, Rc (A :: q) (B :: q) (ho o) z z' = sum d (fun i => sum d (fun j => sum c (fun b => sum c (fun b' => kconj (get A [z; i; b]) * (o i j * delta b b') * get B [z'; j; b']))))).
    { intros o. rewrite (Rc_cons A B q q (ho o) o id_op a d c a d c) by (try assumption; intros; reflexivity). apply sum4_ext. intros i j b b' _ _ Hb Hb'. rewrite Hiso2 by assumption. reflexivity. }
    rewrite (Rc_hseg D A B q k a d c a c) by (assumption || reflexivity). rewrite Hiso1 by assumption.
    rewrite (sum_ext (dep H (k - 1)) _ (fun m => sum d (fun i => sum d (fun j => sum c (fun b => sum c (fun b' => kconj (get A [z; i; b]) * (Lc p (lastop H 0 m) z z' * rgt H (k - 1) m i j * delta b b') * get B [z'; j; b'])))))).
    2:{ intros m Hm. rewrite Ho1. rewrite sum_mul_l. apply sum_ext; intros i _. rewrite sum_mul_l. apply sum_ext; intros j _. rewrite sum_mul_l. apply sum_ext; intros b _. rewrite sum_mul_l. apply sum_ext; intros b' _. ring. }
    rewrite Ho1, sum4_sum.
    assert (Hsc : forall x f, x * sum d (fun i => sum d (fun j => sum c (fun b => sum c (fun b' => f i j b b')))) = sum d (fun i => sum d (fun j => sum c (fun b => sum c (fun b' => x * f i j b b'))))).
    { intros x f. rewrite sum_mul_l. apply sum_ext; intros i _. rewrite sum_mul_l. apply sum_ext; intros j _. rewrite sum_mul_l. apply sum_ext; intros b _. apply sum_mul_l. }
    rewrite !Hsc, !sum4_add. apply sum4_ext. intros i j b b' _ _ Hb Hb'. rewrite Hiso2 by assumption. unfold core, DmrgBlocks.LP. fold p q H.
    rewrite (sum_ext (dep H (k - 1)) (fun m => kconj (get A [z; i; b]) * (Lc p (lastop H 0 m) z z' * rgt H (k - 1) m i j * delta b b') * get B [z'; j; b'])
       (fun m => kconj (get A [z; i; b]) * delta b b' * get B [z'; j; b'] * (Lc p (lastop H 0 m) z z' * rgt H (k - 1) m i j))) by (intros; ring).
    rewrite <- sum_mul_l. ring.
  - intros u v Hu Hv.
    assert (Hsn : forall T u, dims T = [a; d; c] -> in_range (pdims (p ++ T :: q)) u -> exists x i y, u = x ++ i :: y /\ length x = k /\ length y = length q).
    { intros T w HT Hw'. rewrite pdims_app in Hw'. cbn [pdims map] in Hw'. apply SparseFacts.in_range_app in Hw'.
      destruct Hw' as (x & r & -> & Hx & Hr). apply in_range_cons_inv in Hr. destruct Hr as (i & y & -> & Hi & Hy). exists x, i, y. split; [reflexivity|].
      rewrite (in_range_length _ _ Hx), (in_range_length _ _ Hy), length_pdims, map_length. auto. }
    destruct (Hsn A u HA Hu) as (x & i & y & -> & Lx & Ly), (Hsn B v HB Hv) as (x' & j & y' & -> & Lx' & Ly').
    rewrite (hseg_cut H i j y y') by congruence. rewrite !HG by assumption. rewrite Lx. cbn [Nat.add ho hseg].
    rewrite (sum_ext (dep H (k - 1)) (fun m => G (lastop H 0 m) (ho (rgt H (k - 1) m)) (x ++ i :: y) (x' ++ j :: y')) (fun m => lastop H 0 m x x' * rgt H (k - 1) m i j * id_op y y'))
      by (intros; rewrite HG by assumption; cbn [ho]; ring).
    assert (Eb : bondh H k i j y y' = sum (dep H k) (fun m => lft H k m i j * firstop H k m y y')) by (apply (bond_first D k i j y y'); congruence).
    rewrite <- sum_mul_r, Eb. ring.
Qed.

Lemma at_rights k P blk : DAt k P blk -> rights P k.
Proof. intros (_ & _ & _ & (_ & Cr) & _). exact Cr. Qed.
Lemma at_lefts k P blk : DAt k P blk -> lefts P k.
Proof. intros (_ & _ & _ & (Cl & _) & _). exact Cl. Qed.

(** The two parts of the matrix *)
Lemma parts_ok k P blk dk a d c : DAt k P blk -> dims (site P k) = [a; d; c] ->
  exists F G, one_site_parts D P blk k dk = Ok (F, G) /\ is_matrix F (a * d) (a * d) /\ is_matrix G (d * c) (d * c) /\
    forall i j z z' b b', (i < d)%nat -> (j < d)%nat -> (z < a)%nat -> (z' < a)%nat -> (b < c)%nat -> (b' < c)%nat ->
      mat F (z + a * i) (z' + a * j) * delta b b' + delta z z' * mat G (i + d * b) (j + d * b') = core k P i j z z' b b'.
Proof.
  intros HA Hs. pose proof HA as (Ho & Hpd & Hk & Hcan & (Bl & BL & BR)).
  destruct (parts' P k Ho Hpd Hk) as (a0 & d0 & c0 & L1 & L2 & Hs0 & Hw & Ha & Hd & Hc & Ed & Ep & Eq & Hl).
  rewrite Hs in Hs0. injection Hs0 as <- <- <-.
  destruct (block_left D V_ok V_N V_nQ P blk k a d c Ho Hpd Hk (at_lefts _ _ _ HA)) as (T1 & T2); [intros Hk0; apply BL; lia|exact Hs|].
  destruct (block_right D V_ok V_N V_h1 V_h2 V_nQ P blk k a d c Ho Hpd Hk (at_rights _ _ _ HA)) as (U1 & U2); [intros Hk0; apply BR; fold H in Hk0; lia|exact Hs|].
  destruct (local_mat D V_ok V_loc k d Hk Ed) as (Hlt & Hlm).
  unfold one_site_parts. rewrite Hlt. cbn [bind]. unfold dim. rewrite Hs. cbn [nth].
  pose proof (is_matrix_kron2 _ _ _ _ (is_matrix_eye a) Hlm) as K1. pose proof (is_matrix_kron2 _ _ _ _ Hlm (is_matrix_eye c)) as K2.
  destruct (0 <? dk)%Z; eexists; eexists; (split; [reflexivity|]).
  - split; [apply is_matrix_tadd; assumption|]. split; [exact U1|]. intros i j z z' b b' Hi Hj Hz Hz' Hb Hb'.
    rewrite (mat_tadd _ _ (a * d) (a * d)) by (try assumption; nia). rewrite T2, U2 by assumption. rewrite (mat_kron2 _ _ a d) by (try assumption; apply is_matrix_eye).
    rewrite mat_eye by assumption. unfold core, loc. fold H. ring.
  - split; [exact T1|]. split; [apply is_matrix_tadd; assumption|]. intros i j z z' b b' Hi Hj Hz Hz' Hb Hb'.
    rewrite (mat_tadd _ _ (d * c) (d * c)) by (try assumption; nia). rewrite T2, U2 by assumption. rewrite (mat_kron2 _ _ d c) by (try assumption; apply is_matrix_eye).
    rewrite mat_eye by assumption. unfold core, loc. fold H. ring.
Qed.

Lemma index3 a d c r : (r < a * d * c)%nat -> exists z i b, r = (z + a * (i + d * b))%nat /\ (z < a)%nat /\ (i < d)%nat /\ (b < c)%nat.
Proof.
  intros Hr. destruct (split_index D V_N V_nQ a (d * c) r ltac:(nia)) as (z & w & -> & Hz & Hw). destruct (split_index D V_N V_nQ d c w Hw) as (i & b & -> & Hi & Hb).
  exists z, i, b. auto.
Qed.

Lemma bound3 a d c z i b : (z < a)%nat -> (i < d)%nat -> (b < c)%nat -> (z + a * (i + d * b) < a * d * c)%nat.
Proof. intros. rewrite <- Nat.mul_assoc. apply lt_merge; [assumption|]. apply lt_merge; assumption. Qed.

Lemma matrix_ok k P F G a d c : dims (site P k) = [a; d; c] -> is_matrix F (a * d) (a * d) -> is_matrix G (d * c) (d * c) ->
  let M := one_site_matrix P k (F, G) in
  is_matrix M (a * d * c) (a * d * c) /\
  forall i j z z' b b', (i < d)%nat -> (j < d)%nat -> (z < a)%nat -> (z' < a)%nat -> (b < c)%nat -> (b' < c)%nat ->
    mat M (z + a * (i + d * b)) (z' + a * (j + d * b')) = mat F (z + a * i) (z' + a * j) * delta b b' + delta z z' * mat G (i + d * b) (j + d * b').
Proof.
  intros Hs HF HG. unfold one_site_matrix, dim. rewrite Hs. cbn [nth fst snd].
  pose proof (is_matrix_kron2 _ _ _ _ HF (is_matrix_eye c)) as K1. pose proof (is_matrix_kron2 _ _ _ _ (is_matrix_eye a) HG) as K2.
  rewrite Nat.mul_assoc in K2. split; [apply is_matrix_tadd; assumption|]. intros i j z z' b b' Hi Hj Hz Hz' Hb Hb'.
  rewrite (mat_tadd _ _ (a * d * c) (a * d * c)) by (try assumption; apply bound3; assumption). f_equal.
  - replace (z + a * (i + d * b))%nat with ((z + a * i) + (a * d) * b)%nat by ring. replace (z' + a * (j + d * b'))%nat with ((z' + a * j) + (a * d) * b')%nat by ring.
    rewrite (mat_kron2 _ _ (a * d) c) by (try assumption; try apply is_matrix_eye; apply lt_merge; assumption). rewrite mat_eye by assumption. reflexivity.
  - rewrite (mat_kron2 _ _ a (d * c)) by (try assumption; try apply is_matrix_eye; apply lt_merge; assumption). rewrite mat_eye by assumption. reflexivity.
Qed.

Lemma product_ok k P F G a d c : dims (site P k) = [a; d; c] -> is_matrix F (a * d) (a * d) -> is_matrix G (d * c) (d * c) ->
  acts_as (fun v => Ok (one_site_product P k (F, G) v)) (a * d * c) (mat (one_site_matrix P k (F, G))).
Proof.
  intros Hs HF HG v Hwv Hdv. eexists. split; [reflexivity|]. destruct (matrix_ok k P F G a d c Hs HF HG) as (_ & HM).
  unfold one_site_product, dim. rewrite Hs. cbn [nth fst snd].
  set (Y1 := fold (reshape F [a * d; a * d]%nat) 1 (reshape v [a * d; c]%nat) 0). set (Y2 := fold (reshape v [a; d * c]%nat) 1 (reshape G [d * c; d * c]%nat) 1).
  assert (D1 : dims Y1 = [a * d; c]%nat) by reflexivity. assert (D2 : dims Y2 = [a; d * c]%nat) by reflexivity.
  assert (W1 : wf Y1) by apply wf_mk. assert (W2 : wf Y2) by apply wf_mk.
  assert (L1 : length (data Y1) = (a * d * c)%nat) by (unfold wf in W1; rewrite W1, D1; cbn; ring).
  assert (L2 : length (data Y2) = (a * d * c)%nat) by (unfold wf in W2; rewrite W2, D2; cbn; ring).
  assert (R1 : wf (reshape Y1 [a * d * c]%nat)) by (unfold wf; cbn [reshape data dims]; rewrite L1; cbn; ring).
  assert (R2 : wf (reshape Y2 [a * d * c]%nat)) by (unfold wf; cbn [reshape data dims]; rewrite L2; cbn; ring).
  split; [apply wf_tadd; [exact R1|exact R2|reflexivity]|]. split; [reflexivity|]. intros r Hr.
  rewrite get_tadd by (try assumption; try reflexivity; apply in_range_1; exact Hr).
  destruct (index3 a d c r Hr) as (z & i & b & -> & Hz & Hi & Hb).
  rewrite (get_reshape Y1 _ _ [z + a * i; b]%nat) by (rewrite D1; cbn [offset]; ring). rewrite (get_reshape Y2 _ _ [z; i + d * b]%nat) by (rewrite D2; cbn [offset]; ring).
  transitivity (sum (a * (d * c)) (fun s => mat (one_site_matrix P k (F, G)) (z + a * (i + d * b)) s * get v [s])); [|f_equal; ring].
  rewrite sum_merge, sum_merge.
  transitivity (sum c (fun b' => sum d (fun j => sum a (fun z' => (mat F (z + a * i) (z' + a * j) * delta b b' + delta z z' * mat G (i + d * b) (j + d * b')) * get v [z' + a * (j + d * b')]%nat)))).
  2:{ apply sum_ext; intros b' Hb'. apply sum_ext; intros j Hj. apply sum_ext; intros z' Hz'. rewrite HM by assumption. reflexivity. }
  destruct HF as (HFd & _), HG as (HGd & _).
  assert (E1 : get Y1 [z + a * i; b]%nat = sum d (fun j => sum a (fun z' => mat F (z + a * i) (z' + a * j) * get v [z' + a * (j + d * b)]%nat))).
  { unfold Y1, fold. rewrite get_mk by (apply in_range_2; nia). unfold rank, dim. cbn [reshape dims length nth Nat.sub firstn skipn insert_nth app]. rewrite sum_merge.
    apply sum_ext; intros j Hj. apply sum_ext; intros z' Hz'. f_equal; apply get_reshape; [rewrite HFd|rewrite Hdv]; cbn [offset]; ring. }
  assert (E2 : get Y2 [z; i + d * b]%nat = sum c (fun b' => sum d (fun j => mat G (i + d * b) (j + d * b') * get v [z + a * (j + d * b')]%nat))).
  { unfold Y2, fold. rewrite get_mk by (apply in_range_2; nia). unfold rank, dim. cbn [reshape dims length nth Nat.sub firstn skipn insert_nth app]. rewrite sum_merge.
    apply sum_ext; intros b' Hb'. apply sum_ext; intros j Hj.
    replace (get (reshape v [a; d * c]%nat) [z; j + d * b']%nat) with (get v [z + a * (j + d * b')]%nat) by (symmetry; apply get_reshape; rewrite Hdv; cbn [offset]; ring).
    replace (get (reshape G [d * c; d * c]%nat) [i + d * b; j + d * b']%nat) with (mat G (i + d * b) (j + d * b')) by (symmetry; apply get_reshape; rewrite HGd; cbn [offset]; ring). ring. }
  rewrite E1, E2. symmetry.
  rewrite (sum_ext c _ (fun b' => delta b b' * sum d (fun j => sum a (fun z' => mat F (z + a * i) (z' + a * j) * get v [z' + a * (j + d * b')]%nat)) + sum d (fun j => mat G (i + d * b) (j + d * b') * get v [z + a * (j + d * b')]%nat))).
  - rewrite sum_add. f_equal. apply (sum_delta_l' c b (fun b' => sum d (fun j => sum a (fun z' => mat F (z + a * i) (z' + a * j) * get v [z' + a * (j + d * b')]%nat)))). exact Hb.
  - intros b' Hb'. rewrite sum_mul_l, <- sum_add. apply sum_ext; intros j Hj.
    rewrite (sum_ext a _ (fun z' => delta b b' * (mat F (z + a * i) (z' + a * j) * get v [z' + a * (j + d * b')]%nat) + delta z z' * (mat G (i + d * b) (j + d * b') * get v [z' + a * (j + d * b')]%nat))) by (intros; ring).
    rewrite sum_add, <- sum_mul_l. f_equal. apply (sum_delta_l' a z (fun z' => mat G (i + d * b) (j + d * b') * get v [z' + a * (j + d * b')]%nat)). exact Hz.
Qed.

(** The energy as a quadratic form of the elements of one tensor *)
Lemma form_ok k P F G a d c x y : open_mps P -> pdims P = ds -> (k < N)%nat -> canonical_at k P -> dims (site P k) = [a; d; c] ->
  is_matrix F (a * d) (a * d) -> is_matrix G (d * c) (d * c) ->
  (forall i j z z' b b', (i < d)%nat -> (j < d)%nat -> (z < a)%nat -> (z' < a)%nat -> (b < c)%nat -> (b' < c)%nat ->
      mat F (z + a * i) (z' + a * j) * delta b b' + delta z z' * mat G (i + d * b) (j + d * b') = core k P i j z z' b b') ->
  hsand (emb1 k P x) (emb1 k P y) = sum (a * d * c) (fun r => sum (a * d * c) (fun s => kconj (x r) * mat (one_site_matrix P k (F, G)) r s * y s)).
Proof.
  intros Ho Hpd Hk Hcan Hs HF HG Hco. destruct (matrix_ok k P F G a d c Hs HF HG) as (_ & HM). set (M := mat (one_site_matrix P k (F, G))) in *.
  unfold emb1. rewrite Hs. rewrite (local_value k P _ _ a d c) by (try assumption; try apply wf_ten; reflexivity).
  replace (a * d * c)%nat with (nprod [a; d; c]) by (cbn; ring). rewrite sum_offset. cbn [sumcfg].
  apply sum_ext; intros z Hz. rewrite sum_swap. apply sum_ext; intros i Hi.
  transitivity (sum c (fun b => sum a (fun z' => sum d (fun j => sum c (fun b' => kconj (get (ten [a; d; c] x) [z; i; b]) * core k P i j z z' b b' * get (ten [a; d; c] y) [z'; j; b']))))).
  - rewrite (sum_ext a _ (fun z' => sum c (fun b => sum d (fun j => sum c (fun b' => kconj (get (ten [a; d; c] x) [z; i; b]) * core k P i j z z' b b' * get (ten [a; d; c] y) [z'; j; b']))))) by (intros; apply sum_swap).
    apply sum_swap.
  - apply sum_ext; intros b Hb. rewrite sum_offset. cbn [sumcfg]. apply sum_ext; intros z' Hz'. apply sum_ext; intros j Hj. apply sum_ext; intros b' Hb'.
    rewrite !get_ten by (apply in_range_3; assumption). rewrite <- Hco, <- HM by assumption. unfold M. f_equal. f_equal. f_equal; cbn [offset]; ring.
Qed.
End Family.
