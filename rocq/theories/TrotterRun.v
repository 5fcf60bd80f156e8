(** Proofs about the Trotter unitaries: one site, two sites and the loops *)
From Coq Require Import Reals Lra Bool List Arith ZArith Lia Ring.
From Verif Require Import Scalar ScalarFacts RScal Tensor TensorFacts Spec MpsModel MpsFacts EnvFacts ExpectedFacts
  StateFacts MpoFacts SparseSpec SparseFacts CanonSpec CanonModel TruncFacts SplitFacts CanonFacts CanonSweep CanonProps CanonTwo
  StateFacts2 TrotterSpec TrotterModel TrotterFacts TrotterApply.
Import ListNotations.
Local Open Scope K_scope.

Section Chains.
Context {RS : RScal}.
Add Ring Kring : k_ring.

(** A matrix applied to the physical index of one tensor *)
Lemma chain_site_op p q A A' D D' m d c M is a b :
  linked D p m -> linked c q D' -> dims A = [m; d; c] -> wf A -> (0 < d)%nat -> (0 < c)%nat ->
  dims A' = [m; d; c] -> wf A' ->
  (forall x i y, (x < m)%nat -> (i < d)%nat -> (y < c)%nat -> get A' [x; i; y] = sum d (fun j => M i j * get A [x; j; y])) ->
  in_range (pdims (p ++ A :: q)) is -> (a < D)%nat ->
  chain (p ++ A' :: q) is a b = sumcfg (pdims (p ++ A :: q)) (fun js => site_op (length p) M is js * chain (p ++ A :: q) js a b).
Proof.
  intros Hp Hq HA HwA Hd Hc HA' HwA' HG His Ha. assert (HA1 : dim A 1 = d) by (unfold dim; rewrite HA; reflexivity).
  assert (HA2 : dim A 2 = c) by (unfold dim; rewrite HA; reflexivity). assert (HA2' : dim A' 2 = c) by (unfold dim; rewrite HA'; reflexivity).
  rewrite pdims_app in *. apply Forall2_app_inv_l in His. destruct His as (is1 & is2 & H1 & H2 & ->).
  cbn [pdims map] in H2 |- *. fold (pdims q) in H2 |- *. rewrite HA1 in H2 |- *. apply in_range_cons_inv in H2. destruct H2 as (i & is3 & -> & Hi & H2).
  assert (Hl : length is1 = length p) by (rewrite <- (length_pdims p); apply in_range_length; exact H1).
  assert (L1 : linked m (A :: q) D') by (exists d, c; repeat split; auto).
  assert (L2 : linked m (A' :: q) D') by (exists d, c; repeat split; auto).
  rewrite (chain_app D p m _ D' is1 _ a b Hp L2 Hl Ha). rewrite sumcfg_app.
  transitivity (sumcfg (pdims p) (fun js1 => id_op is1 js1 * sumcfg (d :: pdims q) (fun js => match js with [] => 0 | j :: js2 => M i j * id_op is3 js2 * chain (p ++ A :: q) (js1 ++ js) a b end))).
  - rewrite sumcfg_id_op by exact H1. cbn [sumcfg].
    transitivity (sum d (fun j => M i j * chain (p ++ A :: q) (is1 ++ j :: is3) a b)).
    + transitivity (sum d (fun j => M i j * sum m (fun x => chain p is1 a x * chain (A :: q) (j :: is3) x b))).
      * transitivity (sum d (fun j => sum m (fun x => M i j * (chain p is1 a x * chain (A :: q) (j :: is3) x b)))).
        2:{ apply sum_ext. intros j Hj. rewrite sum_mul_l. reflexivity. }
        rewrite sum_swap. apply sum_ext. intros x Hx. cbn [chain]. rewrite HA2, HA2'.
        transitivity (sum c (fun y => sum d (fun j => chain p is1 a x * (M i j * get A [x; j; y] * chain q is3 y b)))).
        -- rewrite sum_mul_l. apply sum_ext. intros y Hy. rewrite HG by assumption. rewrite sum_mul_r, sum_mul_l. apply sum_ext. intros j Hj. ring.
        -- rewrite sum_swap. apply sum_ext. intros j Hj. rewrite !sum_mul_l. apply sum_ext. intros y Hy. ring.
      * apply sum_ext. intros j Hj. f_equal. symmetry. apply (chain_app D p m _ D' is1 _ a b Hp L1 Hl Ha).
    + apply sum_ext. intros j Hj.
      transitivity (sumcfg (pdims q) (fun js => id_op is3 js * (M i j * chain (p ++ A :: q) (is1 ++ j :: js) a b))).
      * rewrite sumcfg_id_op by exact H2. reflexivity.
      * apply sumcfg_ext. intros js Hjs. ring.
  - apply sumcfg_ext. intros js1 Hjs1. rewrite sumcfg_mul_l. apply sumcfg_ext. intros js Hjs.
    apply in_range_cons_inv in Hjs. destruct Hjs as (j & js2 & -> & Hj & Hjs).
    rewrite <- Hl. rewrite site_op_app by (rewrite (in_range_length _ _ Hjs1), (in_range_length _ _ H1); reflexivity). ring.
Qed.

(** A matrix applied to the physical indices of two neighbouring tensors *)
Lemma chain_pair_op p q A B A' B' D D' m c c' d1 d2 m' M is a b :
  linked D p m -> linked m' q D' ->
  dims A = [m; d1; c] -> wf A -> (0 < d1)%nat -> (0 < c)%nat ->
  dims B = [c; d2; m'] -> wf B -> (0 < d2)%nat -> (0 < m')%nat ->
  dims A' = [m; d1; c'] -> wf A' -> (0 < c')%nat -> dims B' = [c'; d2; m'] -> wf B' ->
  (forall x i j y, (x < m)%nat -> (i < d1)%nat -> (j < d2)%nat -> (y < m')%nat ->
     joined A' B' x i j y = sum d2 (fun j' => sum d1 (fun i' => M (i + d1 * j)%nat (i' + d1 * j')%nat * joined A B x i' j' y))) ->
  in_range (pdims (p ++ A :: B :: q)) is -> (a < D)%nat ->
  chain (p ++ A' :: B' :: q) is a b =
  sumcfg (pdims (p ++ A :: B :: q)) (fun js => pair_op (length p) (pdims (p ++ A :: B :: q)) M is js * chain (p ++ A :: B :: q) js a b).
Proof.
  intros Hp Hq HA HwA Hd1 Hc HB HwB Hd2 Hm' HA' HwA' Hc' HB' HwB' HJ His Ha.
  assert (HA1 : dim A 1 = d1) by (unfold dim; rewrite HA; reflexivity). assert (HB1 : dim B 1 = d2) by (unfold dim; rewrite HB; reflexivity).
  assert (HB2 : dim B 2 = m') by (unfold dim; rewrite HB; reflexivity). assert (HB2' : dim B' 2 = m') by (unfold dim; rewrite HB'; reflexivity).
  rewrite pdims_app in *. apply Forall2_app_inv_l in His. destruct His as (is1 & is2 & H1 & H2 & ->).
  cbn [pdims map] in H2 |- *. fold (pdims q) in H2 |- *. rewrite HA1, HB1 in H2 |- *.
  apply in_range_cons_inv in H2. destruct H2 as (i & is3 & -> & Hi & H2).
  apply in_range_cons_inv in H2. destruct H2 as (j & is4 & -> & Hj & H2).
  assert (Hl : length is1 = length p) by (rewrite <- (length_pdims p); apply in_range_length; exact H1).
  assert (L1 : linked m (A :: B :: q) D') by (exists d1, c; repeat split; auto; exists d2, m'; repeat split; auto).
  assert (L2 : linked m (A' :: B' :: q) D') by (exists d1, c'; repeat split; auto; exists d2, m'; repeat split; auto).
  rewrite (chain_app D p m _ D' is1 _ a b Hp L2 Hl Ha). rewrite sumcfg_app.
  transitivity (sumcfg (pdims p) (fun js1 => id_op is1 js1 * sum d1 (fun i' => sum d2 (fun j' => sumcfg (pdims q) (fun js =>
     id_op is4 js * (M (i + d1 * j)%nat (i' + d1 * j')%nat * chain (p ++ A :: B :: q) (js1 ++ i' :: j' :: js) a b)))))).
  - rewrite sumcfg_id_op by exact H1.
    transitivity (sum d1 (fun i' => sum d2 (fun j' => M (i + d1 * j)%nat (i' + d1 * j')%nat * chain (p ++ A :: B :: q) (is1 ++ i' :: j' :: is4) a b))).
    + transitivity (sum d1 (fun i' => sum d2 (fun j' => M (i + d1 * j)%nat (i' + d1 * j')%nat * sum m (fun x => chain p is1 a x * sum m' (fun e => joined A B x i' j' e * chain q is4 e b))))).
      * transitivity (sum m (fun x => sum m' (fun e => sum d1 (fun i' => sum d2 (fun j' => M (i + d1 * j)%nat (i' + d1 * j')%nat * (chain p is1 a x * (joined A B x i' j' e * chain q is4 e b))))))).
        -- apply sum_ext. intros x Hx. rewrite chain_pair, HB2'. rewrite sum_mul_l. apply sum_ext. intros e He. rewrite HJ by assumption.
           rewrite sum_swap. rewrite sum_mul_r, sum_mul_l. apply sum_ext. intros i' Hi'. rewrite sum_mul_r, sum_mul_l. apply sum_ext. intros j' Hj'. ring.
        -- transitivity (sum m (fun x => sum d1 (fun i' => sum d2 (fun j' => M (i + d1 * j)%nat (i' + d1 * j')%nat * (chain p is1 a x * sum m' (fun e => joined A B x i' j' e * chain q is4 e b)))))).
           ++ apply sum_ext. intros x Hx. rewrite sum_swap. apply sum_ext. intros i' Hi'. rewrite sum_swap. apply sum_ext. intros j' Hj'. rewrite !sum_mul_l. reflexivity.
           ++ rewrite sum_swap. apply sum_ext. intros i' Hi'. rewrite sum_swap. apply sum_ext. intros j' Hj'. rewrite sum_mul_l. reflexivity.
      * apply sum_ext. intros i' Hi'. apply sum_ext. intros j' Hj'. f_equal. symmetry.
        rewrite (chain_app D p m _ D' is1 _ a b Hp L1 Hl Ha). apply sum_ext. intros x Hx. rewrite chain_pair, HB2. reflexivity.
    + apply sum_ext. intros i' Hi'. apply sum_ext. intros j' Hj'. rewrite sumcfg_id_op by exact H2. reflexivity.
  - apply sumcfg_ext. intros js1 Hjs1. rewrite sum_mul_l. cbn [sumcfg]. apply sum_ext. intros i' Hi'. rewrite sum_mul_l. apply sum_ext. intros j' Hj'.
    rewrite sumcfg_mul_l. apply sumcfg_ext. intros js Hjs.
    assert (Hl1 : length js1 = length is1) by (rewrite (in_range_length _ _ Hjs1), (in_range_length _ _ H1); reflexivity).
    assert (Hl2 : length (pdims p) = length is1) by (rewrite (in_range_length _ _ H1); reflexivity).
    rewrite <- Hl. rewrite pair_op_app by assumption. ring.
Qed.
End Chains.

Section Steps.
Context {RS : RScal}.
Add Ring Kring2 : k_ring.
Variable svd : tensor -> tensor * list R * tensor.
Variable flag : R.
Hypothesis Hsvd : svd_contract svd.

(** psi' is M psi *)
Definition acted (D D' : nat) (psi psi' : mps) (M : list nat -> list nat -> K) : Prop :=
  forall is a b, in_range (pdims psi) is -> (a < D)%nat ->
    chain psi' is a b = sumcfg (pdims psi) (fun js => M is js * chain psi js a b).

Lemma get_foldin_mid U T a n c x r y : is_matrix U n n -> dims T = [a; n; c] -> (x < a)%nat -> (r < n)%nat -> (y < c)%nat ->
  get (foldin U (rank U - 1) T 1) [x; r; y] = sum n (fun m => mat U r m * get T [x; m; y]).
Proof.
  intros (HU & _) HT Hx Hr Hy. unfold foldin, rank, dim. rewrite HU, HT. cbn -[mk sum get].
  rewrite get_mk by (apply in_range_3; assumption). reflexivity.
Qed.
Lemma dims_foldin_mid U T a n c : is_matrix U n n -> dims T = [a; n; c] -> dims (foldin U (rank U - 1) T 1) = [a; n; c].
Proof. intros (HU & _) HT. unfold foldin, rank. rewrite HU, HT. reflexivity. Qed.

Lemma matrix_nonempty U n : is_matrix U n n -> (0 < n)%nat -> is_empty U = false.
Proof.
  intros (HU & HW) Hn. unfold is_empty. unfold wf in HW. rewrite HU in HW. cbn in HW.
  destruct (data U); [cbn in HW; nia|]. reflexivity.
Qed.

Lemma site_at_ok (P : mps) k : (k < length P)%nat -> site_at P (Z.of_nat k) = Ok (site P k).
Proof.
  intros H. unfold site_at. destruct (Z.leb_spec 0 (Z.of_nat k)); [|lia]. destruct (Z.ltb_spec (Z.of_nat k) (Z.of_nat (length P))); [|lia].
  cbn. rewrite Nat2Z.id. reflexivity.
Qed.

(** set_canonical in either direction *)
Lemma set_canonical_any P k t sense D D' : linked D (replace_nth k t P) D' -> (0 < D)%nat -> (k < length P)%nat -> flag <> 0%R ->
  exists P', set_canonical svd flag P (Z.of_nat k) t sense true = Ok P' /\ linked D P' D' /\ pdims P' = pdims (replace_nth k t P) /\
    (forall j, (dim (site P' j) 0 <= dim (site (replace_nth k t P) j) 0)%nat) /\
    (exact flag true -> same_chain D (replace_nth k t P) P').
Proof.
  intros HL HD Hk Hf.
  assert (Hsame : exists P', Ok (replace_nth k t P) = Ok P' /\ linked D P' D' /\ pdims P' = pdims (replace_nth k t P) /\
    (forall j, (dim (site P' j) 0 <= dim (site (replace_nth k t P) j) 0)%nat) /\ (exact flag true -> same_chain D (replace_nth k t P) P')).
  { eexists. split; [reflexivity|]. split; [exact HL|]. split; [reflexivity|]. split; [lia|]. intros _ is a b _ _. reflexivity. }
  destruct (Z.ltb_spec 0 sense) as [Hs|Hs].
  - assert (E : set_canonical svd flag P (Z.of_nat k) t sense true = set_canonical svd flag P (Z.of_nat k) t 1 true).
    { unfold set_canonical. destruct (Z.ltb_spec 0 sense); [reflexivity|lia]. }
    rewrite E. destruct (Nat.eq_dec (S k) (length P)) as [He|Hne].
    + unfold set_canonical. destruct (Z.leb_spec 0 (Z.of_nat k)); [|lia]. destruct (Z.ltb_spec (Z.of_nat k) (Z.of_nat (length P))); [|lia].
      cbn [andb]. rewrite Nat2Z.id. cbn [Z.ltb Z.compare]. destruct (Nat.eqb_spec (k + 1) (length P)); [exact Hsame|lia].
    + destruct (set_canonical_right_ok3 svd flag Hsvd D D' P k t true HL HD ltac:(lia) (or_introl Hf)) as (P' & E' & (S1 & S2 & _ & S4 & S5) & _).
      exists P'. auto.
  - assert (E : set_canonical svd flag P (Z.of_nat k) t sense true = set_canonical svd flag P (Z.of_nat k) t (-1) true).
    { unfold set_canonical. destruct (Z.ltb_spec 0 sense); [lia|reflexivity]. }
    rewrite E. destruct k as [|k].
    + unfold set_canonical. cbn [Z.of_nat]. destruct (Z.ltb_spec 0 (Z.of_nat (length P))); [|lia]. cbn -[replace_nth]. exact Hsame.
    + destruct (set_canonical_left_ok3 svd flag Hsvd D D' P k t true HL HD ltac:(lia) (or_introl Hf)) as (P' & E' & (S1 & S2 & _ & S4 & S5) & _).
      exists P'. auto.
Qed.

Definition exact_mode (Dmax : nat) : Prop := Dmax = 0%nat \/ (1 <= flag)%R.

Lemma acted_same D D' P P1 P2 M : exact flag true \/ P1 = P2 -> (exact flag true -> same_chain D P1 P2) -> pdims P1 = pdims P -> acted D D' P P1 M -> acted D D' P P2 M.
Proof.
  intros He HS Hd HA is a b His Ha. destruct He as [He|<-]; [|apply HA; assumption].
  rewrite (HS He is a b) by (rewrite ?Hd; assumption). apply HA; assumption.
Qed.

Lemma one_site_ok P U k dk Dmax D D' : linked D P D' -> (0 < D)%nat -> (k < length P)%nat -> (Dmax = 0%nat \/ flag <> 0%R) ->
  is_matrix U (nth k (pdims P) 0%nat) (nth k (pdims P) 0%nat) ->
  exists P', apply_onto_one_site svd flag P U k dk Dmax = Ok P' /\ linked D P' D' /\ pdims P' = pdims P /\
    (forall j, (dim (site P' j) 0 <= dim (site P j) 0)%nat) /\
    (exact_mode Dmax -> acted D D' P P' (site_op k (mat U))).
Proof.
  intros HL HD Hk Hf HU. pose proof (list_split_nth k P empty Hk) as EP. fold (site P k) in EP.
  set (p := firstn k P) in *. set (q := skipn (S k) P) in *. set (A := site P k) in *.
  assert (Hlp : length p = k) by (unfold p; rewrite firstn_length; lia).
  unfold apply_onto_one_site. rewrite site_at_ok by exact Hk. cbn [bind]. fold A.
  pose proof HL as HL0. rewrite EP in HL. apply linked_app in HL. destruct HL as (m & HLp & d & c & HA & HwA & Hd & Hc & HLq).
  assert (Hn : nth k (pdims P) 0%nat = d).
  { rewrite EP, pdims_app, app_nth2; rewrite length_pdims, Hlp; [|lia]. rewrite Nat.sub_diag. cbn. unfold dim. rewrite HA. reflexivity. }
  rewrite Hn in HU. rewrite (matrix_nonempty U d HU Hd).
  set (A' := foldin U (rank U - 1) A 1).
  assert (HA' : dims A' = [m; d; c]) by (apply dims_foldin_mid; assumption).
  assert (HwA' : wf A') by apply wf_mk.
  set (P1 := p ++ A' :: q).
  assert (E1 : replace_nth k A' P = P1) by (rewrite EP; rewrite <- Hlp; apply replace_nth_len).
  assert (HL1 : linked D P1 D').
  { apply linked_app. exists m. split; [exact HLp|]. exists d, c. auto. }
  assert (Hd1 : pdims P1 = pdims P).
  { transitivity (pdims (p ++ A :: q)); [|rewrite <- EP; reflexivity]. unfold P1. rewrite !pdims_app. cbn [pdims map]. unfold dim. rewrite HA, HA'. reflexivity. }
  assert (Hb1 : forall j, dim (site P1 j) 0 = dim (site P j) 0).
  { intros j. rewrite <- E1. unfold site. destruct (Nat.eq_dec j k) as [->|Hne].
    - rewrite nth_replace_nth_eq by lia. unfold dim. rewrite HA'. fold (site P k). fold A. rewrite HA. reflexivity.
    - rewrite nth_replace_nth_neq by lia. reflexivity. }
  assert (HA1 : acted D D' P P1 (site_op k (mat U))).
  { intros is a b His Ha. rewrite EP in His |- *. rewrite <- Hlp.
    apply (chain_site_op p q A A' D D' m d c); try assumption.
    intros x i y Hx Hi Hy. apply (get_foldin_mid U A m d c); assumption. }
  destruct (Nat.eqb_spec Dmax 0) as [->|HDm].
  - exists P1. rewrite E1. split; [reflexivity|]. split; [exact HL1|]. split; [exact Hd1|]. split; [intros j; rewrite Hb1; lia|]. intros _. exact HA1.
  - destruct Hf as [Hf|Hf]; [lia|].
    destruct (set_canonical_any P k A' dk D D') as (P2 & E2 & S1 & S2 & S3 & S4); try assumption; [rewrite E1; exact HL1|].
    rewrite E1 in *. exists P2. split; [exact E2|]. split; [exact S1|]. split; [congruence|]. split; [intros j; rewrite <- Hb1; apply S3|].
    intros [->|He]; [lia|]. apply (acted_same D D' P P1 P2); auto. left. right. exact He.
Qed.

(** The two tensors of a cut SVD, scaled before or after the cut *)
Lemma cut_scaled T a i j c Us sv Vs b (right : bool) : dims T = [a; i; j; c] ->
  is_svd (a * i) (j * c) (reshape T [a * i; j * c]%nat) Us sv Vs -> (b <= length sv)%nat ->
  let '(P1, P2) := if right then (Us, scale Vs 0 sv) else (scale Us 1 sv, Vs) in
  let '(P1, P2) := if Nat.eqb b (length sv) then (P1, P2) else (change_dimension P1 1 b, change_dimension P2 0 b) in
  let Pi := reshape P1 [a; i; b] in let Pj := reshape P2 [b; j; c] in
  dims Pi = [a; i; b] /\ wf Pi /\ dims Pj = [b; j; c] /\ wf Pj /\
  forall x y z w, (x < a)%nat -> (y < i)%nat -> (z < j)%nat -> (w < c)%nat ->
    get T [x; y; z; w] = joined Pi Pj x y z w + dropped Us sv Vs b (x + a * y)%nat (z + j * w)%nat.
Proof.
  intros HT Hs Hb.
  assert (G : forall P1 P2, is_matrix P1 (a * i) (length sv) -> is_matrix P2 (length sv) (j * c) ->
    (forall r k q, (r < a * i)%nat -> (k < length sv)%nat -> (q < j * c)%nat -> get P1 [r; k] * get P2 [k; q] = get Us [r; k] * (rinj (nth k sv 0%R) * get Vs [k; q])) ->
    let '(P1, P2) := if Nat.eqb b (length sv) then (P1, P2) else (change_dimension P1 1 b, change_dimension P2 0 b) in
    let Pi := reshape P1 [a; i; b] in let Pj := reshape P2 [b; j; c] in
    dims Pi = [a; i; b] /\ wf Pi /\ dims Pj = [b; j; c] /\ wf Pj /\
    forall x y z w, (x < a)%nat -> (y < i)%nat -> (z < j)%nat -> (w < c)%nat ->
      get T [x; y; z; w] = joined Pi Pj x y z w + dropped Us sv Vs b (x + a * y)%nat (z + j * w)%nat).
  { intros P1 P2 (HP1 & HwP1) (HP2 & HwP2) HG.
    set (Q := if Nat.eqb b (length sv) then (P1, P2) else (change_dimension P1 1 b, change_dimension P2 0 b)).
    assert (HQ : is_matrix (fst Q) (a * i) b /\ is_matrix (snd Q) b (j * c) /\
       forall r k q, (r < a * i)%nat -> (k < b)%nat -> (q < j * c)%nat -> get (fst Q) [r; k] * get (snd Q) [k; q] = get P1 [r; k] * get P2 [k; q]).
    { unfold Q. destruct (Nat.eqb_spec b (length sv)) as [->|Hne]; cbn [fst snd].
      - split; [split; assumption|]. split; [split; assumption|]. reflexivity.
      - assert (E1 : replace_nth 1 b (dims P1) = [a * i; b]%nat) by (rewrite HP1; reflexivity).
        assert (E2 : replace_nth 0 b (dims P2) = [b; j * c]%nat) by (rewrite HP2; reflexivity).
        split; [split; [unfold change_dimension; rewrite dims_mk; exact E1|apply wf_mk]|].
        split; [split; [unfold change_dimension; rewrite dims_mk; exact E2|apply wf_mk]|].
        intros r k q Hr Hk Hq. rewrite !get_change_dim; [reflexivity| | | |].
        + rewrite E2. apply in_range_2; assumption.
        + cbn. unfold dim. rewrite HP2. cbn. lia.
        + rewrite E1. apply in_range_2; assumption.
        + cbn. unfold dim. rewrite HP1. cbn. lia. }
    destruct Q as [Q1 Q2]. cbn [fst snd] in HQ. destruct HQ as ((HQ1 & HwQ1) & (HQ2 & HwQ2) & HQ). cbv zeta.
    split; [reflexivity|]. split; [apply wf_reshape; [exact HwQ1|rewrite HQ1; cbn; lia]|].
    split; [reflexivity|]. split; [apply wf_reshape; [exact HwQ2|rewrite HQ2; cbn; lia]|].
    intros x y z w Hx Hy Hz Hw. rewrite <- (get_join4 T a i j c) by assumption.
    rewrite (svd_split_sum _ _ _ _ _ _ b _ _ Hs Hb) by nia. f_equal. unfold joined, dim. cbn [dims reshape nth].
    apply sum_ext. intros k Hk. rewrite (get_unjoin_left Q1 a i b) by assumption. rewrite (get_unjoin_right Q2 b j c) by assumption.
    rewrite HQ by nia. rewrite HG by (try nia; lia). reflexivity. }
  destruct Hs as (H1 & H2 & (HU1 & HU2) & (HV1 & HV2) & _).
  destruct right.
  - apply G; [split; assumption|split; [unfold scale; rewrite dims_mk; exact HV1|apply wf_mk]|].
    intros r k q Hr Hk Hq. rewrite get_scale by (rewrite HV1; apply in_range_2; assumption). cbn [nth]. ring.
  - apply G; [split; [unfold scale; rewrite dims_mk; exact HU1|apply wf_mk]|split; assumption|].
    intros r k q Hr Hk Hq. rewrite get_scale by (rewrite HU1; apply in_range_2; assumption). cbn [nth]. ring.
Qed.

Lemma tail_zero (s : list R) b : tail_weight s b = 0%R -> forall k, (b <= k)%nat -> nth k s 0%R = 0%R.
Proof.
  intros H k Hk. destruct (le_lt_dec (length s) k) as [Hl|Hl]; [apply nth_overflow; exact Hl|].
  pose proof (tail_weight_le s b k Hk). pose proof (tail_weight_nonneg s (S k)). pose proof (tail_weight_S s k Hl). nra.
Qed.

Lemma two_sites_ok P U k dk tol Dmax D D' : linked D P D' -> (0 < D)%nat -> (S k < length P)%nat -> (Dmax = 0%nat \/ flag <> 0%R) ->
  is_matrix U (nth k (pdims P) 0 * nth (S k) (pdims P) 0)%nat (nth k (pdims P) 0 * nth (S k) (pdims P) 0)%nat ->
  eff_tol flag tol <> 0%R ->
  exists P' e, apply_onto_two_sites svd flag P U k dk tol Dmax = Ok (P', e) /\ linked D P' D' /\ pdims P' = pdims P /\ (0 <= e)%R /\
    (forall j, j <> S k -> (dim (site P' j) 0 <= dim (site P j) 0)%nat) /\ ((0 < Dmax)%nat -> (dim (site P' (S k)) 0 <= Dmax)%nat) /\
    ((1 <= eff_tol flag tol)%R -> Dmax = 0%nat -> e = 0%R) /\
    (e = 0%R -> exact_mode Dmax -> acted D D' P P' (pair_op k (pdims P) (mat U))).
Proof.
  intros HL HD Hk Hf HU Ht.
  destruct (linked_split2 D P D' k HL HD Hk) as (m & d1 & c & d2 & m' & HLp & HLq & Hm & HA & HwA & Hd1 & Hc & HB & HwB & Hd2 & Hm').
  pose proof (split2 P k Hk) as EP.
  set (p := firstn k P) in *. set (q := skipn (S (S k)) P) in *. set (A := site P k) in *. set (B := site P (S k)) in *.
  assert (Hlp : length p = k) by (unfold p; rewrite firstn_length; lia).
  assert (Hn1 : nth k (pdims P) 0%nat = d1).
  { rewrite EP, pdims_app, app_nth2; rewrite length_pdims, Hlp; [|lia]. rewrite Nat.sub_diag. cbn. unfold dim. rewrite HA. reflexivity. }
  assert (Hn2 : nth (S k) (pdims P) 0%nat = d2).
  { rewrite EP, pdims_app, app_nth2; rewrite length_pdims, Hlp; [|lia]. replace (S k - k)%nat with 1%nat by lia. cbn. unfold dim. rewrite HB. reflexivity. }
  rewrite Hn1, Hn2 in HU.
  unfold apply_onto_two_sites. rewrite Nat.add_1_r. rewrite !site_at_ok by lia. cbn [bind]. fold A B.
  assert (EA : dim A 0 = m /\ dim A 1 = d1) by (unfold dim; rewrite HA; split; reflexivity). destruct EA as (-> & ->).
  assert (EB : dim B 1 = d2 /\ dim B 2 = m') by (unfold dim; rewrite HB; split; reflexivity). destruct EB as (-> & ->).
  cbv zeta. rewrite (matrix_nonempty U (d1 * d2) HU) by nia.
  set (F := fold A (rank A - 1) B 0).
  assert (HF : dims F = [m; d1; d2; m']) by (unfold F, fold, rank; rewrite HA, HB; reflexivity).
  assert (HwF : wf F) by apply wf_mk.
  assert (HgF : forall x i j y, (x < m)%nat -> (i < d1)%nat -> (j < d2)%nat -> (y < m')%nat -> get F [x; i; j; y] = joined A B x i j y).
  { intros x i j y Hx Hi Hj Hy. unfold F, fold, rank, joined, dim. rewrite HA, HB. cbn -[mk sum get].
    rewrite get_mk by (repeat constructor; assumption). reflexivity. }
  set (T0 := reshape F [m; d1 * d2; m']%nat).
  assert (HT0 : dims T0 = [m; d1 * d2; m']%nat) by reflexivity.
  assert (HgT0 : forall x i j y, (x < m)%nat -> (i < d1)%nat -> (j < d2)%nat -> (y < m')%nat -> get T0 [x; i + d1 * j; y]%nat = joined A B x i j y).
  { intros x i j y Hx Hi Hj Hy. rewrite <- HgF by assumption. unfold T0, get. cbn [dims reshape data]. rewrite HF. cbn [offset]. f_equal. nia. }
  set (T := foldin U (rank U - 1) T0 1).
  assert (HT : dims T = [m; d1 * d2; m']%nat) by (apply dims_foldin_mid; assumption).
  assert (HwT : wf T) by apply wf_mk.
  set (T4 := reshape T [m; d1; d2; m']).
  assert (HgT4 : forall x i j y, (x < m)%nat -> (i < d1)%nat -> (j < d2)%nat -> (y < m')%nat ->
     get T4 [x; i; j; y] = sum d2 (fun j' => sum d1 (fun i' => mat U (i + d1 * j)%nat (i' + d1 * j')%nat * joined A B x i' j' y))).
  { intros x i j y Hx Hi Hj Hy. replace (get T4 [x; i; j; y]) with (get T [x; i + d1 * j; y]%nat).
    2:{ unfold T4, get. cbn [dims reshape data]. rewrite HT. cbn [offset]. f_equal. nia. }
    unfold T. rewrite (get_foldin_mid U T0 m (d1 * d2) m') by (try assumption; nia). rewrite sum_merge. apply sum_ext. intros j' Hj'. apply sum_ext. intros i' Hi'.
    rewrite HgT0 by assumption. reflexivity. }
  assert (ER : reshape T [m * d1; d2 * m']%nat = reshape T4 [m * d1; d2 * m']%nat) by reflexivity.
  rewrite ER.
  assert (HM : is_matrix (reshape T4 [m * d1; d2 * m']%nat) (m * d1) (d2 * m')).
  { split; [reflexivity|]. apply wf_reshape; [|cbn; lia]. apply wf_reshape; [exact HwT|rewrite HT; cbn; lia]. }
  pose proof (Hsvd (m * d1)%nat (d2 * m')%nat _ HM ltac:(nia) ltac:(nia)) as Hs.
  destruct (svd (reshape T4 [m * d1; d2 * m']%nat)) as [[Us sv] Vs].
  set (b := where_to_truncate flag sv tol (Z.of_nat (if Nat.eqb Dmax 0 then length sv else Dmax))).
  assert (Hb : (b <= length sv)%nat) by apply wtt_le_length.
  assert (HbD : (0 < Dmax)%nat -> (b <= Dmax)%nat).
  { intros HDm. unfold b. destruct (Nat.eqb_spec Dmax 0) as [|_]; [lia|]. eapply Nat.le_trans; [apply wtt_le|].
    unfold eff_max. destruct (Z.leb_spec (Z.of_nat Dmax) 0); [lia|]. destruct (Z.ltb_spec (Z.of_nat (length sv)) (Z.of_nat Dmax)); cbn; lia. }
  assert (Hb0 : (0 < b)%nat) by (apply wtt_pos; [apply Hs|left; exact Ht]).
  pose proof (cut_scaled T4 m d1 d2 m' Us sv Vs b (0 <? dk)%Z eq_refl Hs Hb) as HC.
  destruct (if (0 <? dk)%Z then (Us, scale Vs 0 sv) else (scale Us 1 sv, Vs)) as [P1 P2].
  destruct (if Nat.eqb b (length sv) then (P1, P2) else (change_dimension P1 1 b, change_dimension P2 0 b)) as [Q1 Q2].
  cbv zeta in HC. set (Pi := reshape Q1 [m; d1; b]) in *. set (Pj := reshape Q2 [b; d2; m']) in *.
  destruct HC as (HPi & HwPi & HPj & HwPj & HJ).
  set (P' := p ++ Pi :: Pj :: q).
  assert (HL1 : linked D P' D').
  { apply linked_app. exists m. split; [exact HLp|]. exists d1, b. repeat split; auto. exists d2, m'. repeat split; auto. }
  assert (Hdd : pdims P' = pdims P).
  { transitivity (pdims (p ++ A :: B :: q)); [|rewrite <- EP; reflexivity]. unfold P'. rewrite !pdims_app. cbn [pdims map]. unfold dim. rewrite HA, HB, HPi, HPj. reflexivity. }
  assert (HbP : forall j, dim (site P' j) 0 = if Nat.eqb j (S k) then b else dim (site P j) 0).
  { intros j. unfold P', p, q. rewrite (site_two P k Pi Pj j Hk). destruct (Nat.eqb_spec j k) as [->|H1].
    - destruct (Nat.eqb_spec k (S k)); [lia|]. fold A. unfold dim. rewrite HPi, HA. reflexivity.
    - destruct (Nat.eqb_spec j (S k)); [unfold dim; rewrite HPj; reflexivity|reflexivity]. }
  assert (HA' : tail_weight sv b = 0%R -> acted D D' P P' (pair_op k (pdims P) (mat U))).
  { intros He is a bb His Ha. unfold P'. rewrite EP in His |- *. rewrite <- Hlp.
    apply (chain_pair_op p q A B Pi Pj D D' m c b d1 d2 m'); try assumption.
    intros x i j y Hx Hi Hj Hy. rewrite <- HgT4 by assumption. rewrite HJ by assumption.
    rewrite dropped_zero; [ring|]. apply tail_zero. exact He. }
  destruct (replace2 P k Pi Pj Hk) as (R1 & R2). fold p q P' in R1, R2.
  assert (He1 : (1 <= eff_tol flag tol)%R -> Dmax = 0%nat -> tail_weight sv b = 0%R).
  { intros H1 ->. apply tail_weight_past. unfold b. cbn [Nat.eqb]. rewrite wtt_none by exact H1. rewrite eff_max_big by (try lia; apply Hs). lia. }
  destruct (Nat.eqb_spec Dmax 0) as [H0|HDm].
  - exists P', (tail_weight sv b). rewrite R1. split; [reflexivity|]. split; [exact HL1|]. split; [exact Hdd|]. split; [apply tail_weight_nonneg|].
    split; [intros j Hj; rewrite HbP; destruct (Nat.eqb_spec j (S k)); [lia|lia]|]. split; [lia|]. split; [exact He1|]. intros He _. apply HA'. exact He.
  - destruct Hf as [Hf|Hf]; [lia|].
    assert (HX : exists Pz, (if (0 <? dk)%Z then bind (set_canonical svd flag (replace_nth k Pi P) (Z.of_nat (S k)) Pj dk true) (fun P0 => Ok (P0, tail_weight sv b))
       else bind (set_canonical svd flag (replace_nth (S k) Pj P) (Z.of_nat k) Pi dk true) (fun P0 => Ok (P0, tail_weight sv b))) = Ok (Pz, tail_weight sv b) /\
       linked D Pz D' /\ pdims Pz = pdims P' /\ (forall j, (dim (site Pz j) 0 <= dim (site P' j) 0)%nat) /\ (exact flag true -> same_chain D P' Pz)).
    { destruct (0 <? dk)%Z.
      - destruct (set_canonical_any (replace_nth k Pi P) (S k) Pj dk D D') as (Pz & E2 & S1 & S2 & S3 & S4); try assumption;
          [rewrite R1; exact HL1|rewrite length_replace_nth; lia|]. rewrite R1 in *. exists Pz. rewrite E2. cbn [bind]. auto.
      - destruct (set_canonical_any (replace_nth (S k) Pj P) k Pi dk D D') as (Pz & E2 & S1 & S2 & S3 & S4); try assumption;
          [rewrite R2; exact HL1|rewrite length_replace_nth; lia|]. rewrite R2 in *. exists Pz. rewrite E2. cbn [bind]. auto. }
    destruct HX as (Pf & E2 & S1 & S2 & S3 & S4). exists Pf, (tail_weight sv b). split; [exact E2|]. split; [exact S1|]. split; [congruence|].
    split; [apply tail_weight_nonneg|].
    split; [intros j Hj; specialize (S3 j); rewrite HbP in S3; destruct (Nat.eqb_spec j (S k)); lia|].
    split; [intros H0; specialize (S3 (S k)); rewrite HbP, Nat.eqb_refl in S3; specialize (HbD H0); lia|].
    split; [intros _ H0; lia|].
    intros He [H0|H1]; [lia|]. apply (acted_same D D' P P' Pf); auto. left. right. exact H1.
Qed.
End Steps.
