(** GHZ and cluster states; density matrices. *)
From Coq Require Import Bool List Arith ZArith Lia Ring.
From Verif Require Import Scalar ScalarFacts Tensor TensorFacts Spec MpsModel MpsFacts EnvFacts
  ExpectedFacts StateFacts.
Import ListNotations.
Local Open Scope K_scope.

Section Facts.
Context {SC : Scalar}.
Add Ring Kring : k_ring.

Lemma new_mps_22 L periodic : (0 < L)%nat ->
  new_mps L 2 2 periodic =
  Ok (map (fun i => zeros [left_of periodic 2 i; 2%nat; right_of periodic 2 L i]) (seq 0 L)).
Proof.
  intros HL. unfold new_mps. cbn [Nat.eqb]. rewrite presize_ok.
  - rewrite repeat_length. f_equal. apply map_ext_in. intros i Hi. apply in_seq in Hi.
    f_equal. f_equal. f_equal. rewrite (nth_indep _ 0%nat 2%nat) by (rewrite repeat_length; lia).
    apply nth_repeat.
  - lia.
  - apply Forall_forall. intros d Hd. apply repeat_spec in Hd. lia.
Qed.

Lemma ghz_unfold v v4 L periodic : (0 < L)%nat ->
  ghz_state v v4 L periodic =
  Ok (map (fun i => ghz_site v v4 L periodic i [left_of periodic 2 i; 2%nat; right_of periodic 2 L i]) (seq 0 L)).
Proof.
  intros HL. unfold ghz_state. rewrite new_mps_22 by assumption. cbn [bind]. f_equal.
  apply map_ext_in. intros i Hi. apply in_seq in Hi. rewrite nth_site_map by lia. reflexivity.
Qed.

Ltac two x := destruct x as [|[|x]]; [ | | exfalso; lia].

Lemma range2 i : (i < 2)%nat -> i = 0%nat \/ i = 1%nat.
Proof. lia. Qed.

Lemma in_range_repeat2 n is : in_range (repeat 2%nat n) is <-> (length is = n /\ Forall (fun i => i < 2)%nat is).
Proof.
  split.
  - intros H. split; [rewrite (in_range_length _ _ H); apply repeat_length|].
    revert is H. induction n as [|n IH]; intros is H.
    + apply in_range_nil_inv in H. subst. constructor.
    + apply in_range_cons_inv in H. destruct H as (i & is' & -> & Hi & H). constructor; auto.
  - intros (Hl & H). revert n Hl. induction H as [|i is Hi H IH]; intros n Hl; cbn in Hl; subst n.
    + constructor.
    + cbn. constructor; auto. apply IH. reflexivity.
Qed.

(** *** GHZ *)
Lemma ghz_wf_dims v v4 L periodic i : (0 < L)%nat -> (i < L)%nat ->
  dims (ghz_site v v4 L periodic i [left_of periodic 2 i; 2%nat; right_of periodic 2 L i]) =
    [left_of periodic 2 i; 2%nat; right_of periodic 2 L i] /\
  wf (ghz_site v v4 L periodic i [left_of periodic 2 i; 2%nat; right_of periodic 2 L i]).
Proof.
  intros HL Hi. unfold ghz_site.
  destruct (Nat.eqb L 1), periodic, (Nat.eqb i 0), (Nat.eqb i (L - 1));
    (split; [reflexivity|repeat apply wf_set_elem; apply wf_mk]).
Qed.

Lemma ghz_linked v v4 L periodic : (0 < L)%nat ->
  linked (outer periodic 2)
   (map (fun i => ghz_site v v4 L periodic i [left_of periodic 2 i; 2%nat; right_of periodic 2 L i]) (seq 0 L))
   (outer periodic 2).
Proof.
  intros HL.
  pose proof (presize_linked
    (fun i => ghz_site v v4 L periodic i [left_of periodic 2 i; 2%nat; right_of periodic 2 L i])
    (repeat 2%nat L) 2 periodic) as H.
  rewrite repeat_length in H. apply H.
  - lia.
  - apply Forall_forall. intros d Hd. apply repeat_spec in Hd. lia.
  - lia.
  - intros i Hi. destruct (ghz_wf_dims v v4 L periodic i HL Hi) as (H1 & H2). split; [|exact H2].
    rewrite H1. f_equal. f_equal. rewrite (nth_indep _ 0%nat 2%nat) by (rewrite repeat_length; lia).
    symmetry. apply nth_repeat.
Qed.

Lemma pdims_map_dim1 (f : nat -> tensor) d n :
  (forall i, (i < n)%nat -> dim (f i) 1 = d) -> pdims (map f (seq 0 n)) = repeat d n.
Proof.
  intros H. unfold pdims. rewrite map_map. apply (nth_ext _ _ 0%nat 0%nat).
  - rewrite map_length, seq_length, repeat_length. reflexivity.
  - intros k Hk. rewrite map_length, seq_length in Hk. rewrite nth_map_seq by assumption.
    rewrite H by assumption.
    rewrite (nth_indep _ 0%nat d) by (rewrite repeat_length; exact Hk). symmetry. apply nth_repeat.
Qed.

(** last and middle sites, as seen from bond a *)
Definition tail_target (periodic : bool) (v4 : K) (is : list nat) (a b : nat) : K :=
  if forallb (Nat.eqb a) is then (if periodic then v4 * delta a b else v4) else 0.

Lemma ghz_tail v v4 L periodic n k is a b : (2 <= L)%nat -> (k + n = L)%nat -> (1 <= k)%nat -> (1 <= n)%nat ->
  length is = n -> Forall (fun i => i < 2)%nat is -> (a < 2)%nat -> (b < outer periodic 2)%nat ->
  chain (map (fun i => ghz_site v v4 L periodic i [left_of periodic 2 i; 2%nat; right_of periodic 2 L i]) (seq k n)) is a b
  = tail_target periodic v4 is a b.
Proof.
  intros HL. revert k is a. induction n as [|n IH]; intros k is a Hkn Hk Hn Hlen His Ha Hb; [lia|].
  destruct is as [|i is]; [discriminate|]. pose proof (Forall_inv His) as Hi; pose proof (Forall_inv_tail His) as His'; cbn beta in Hi; clear His.
  cbn [seq map chain].
  destruct n as [|n].
  - (* last site *)
    destruct is; [|discriminate]. cbn [seq map].
    assert (Hlft : left_of periodic 2 k = 2%nat).
    { unfold left_of. destruct (Nat.ltb_spec 0 k); [|lia]. rewrite orb_true_r. reflexivity. }
    assert (Hr : right_of periodic 2 L k = outer periodic 2).
    { unfold right_of, outer. destruct periodic; [reflexivity|]. cbn [orb].
      destruct (Nat.ltb_spec k (L - 1)); [lia|reflexivity]. }
    rewrite Hlft, Hr. unfold ghz_site. destruct (Nat.eqb_spec L 1); [lia|].
    destruct (Nat.eqb_spec k 0); [lia|]. destruct (Nat.eqb_spec k (L - 1)); [|lia].
    unfold dim. cbn [dims set_elem zeros mk nth]. unfold tail_target.
    two a; two i; destruct periodic; cbn in Hb; two b; try (exfalso; lia); cbn; ring.
  - (* middle site *)
    assert (Hlft : left_of periodic 2 k = 2%nat).
    { unfold left_of. destruct (Nat.ltb_spec 0 k); [|lia]. rewrite orb_true_r. reflexivity. }
    assert (Hr : right_of periodic 2 L k = 2%nat).
    { unfold right_of. destruct (Nat.ltb_spec k (L - 1)); [|lia]. rewrite orb_true_r. reflexivity. }
    rewrite Hlft, Hr. 
    assert (Hs : ghz_site v v4 L periodic k [2;2;2]%nat = set_elem (set_elem (zeros [2;2;2]%nat) [0; 0; 0]%nat 1) [1; 1; 1]%nat 1).
    { unfold ghz_site. destruct (Nat.eqb_spec L 1); [lia|].
      destruct (Nat.eqb_spec k 0); [lia|]. destruct (Nat.eqb_spec k (L - 1)); [lia|]. reflexivity. }
    rewrite Hs. set (mid := set_elem _ _ _).
    assert (Hmid : forall c, (c < 2)%nat -> get mid [a; i; c] = if Nat.eqb a i && Nat.eqb i c then 1 else 0).
    { intros c Hc. two a; two i; two c; reflexivity. }
    assert (Hd2 : dim mid 2 = 2%nat) by reflexivity. rewrite Hd2. clearbody mid.
    transitivity (sum 2 (fun c => get mid [a; i; c] * tail_target periodic v4 is c b)).
    { apply sum_ext. intros c Hc. rewrite (IH (S k)); auto; lia. }
    cbn [sum]. rewrite !Hmid by lia. unfold tail_target. cbn [forallb].
    two a; two i; cbn; ring.
Qed.

Lemma ghz_correct v v4 L periodic : (0 < L)%nat -> v4 * v4 = v -> (periodic = false \/ 2 <= L)%nat ->
  exists psi, ghz_state v v4 L periodic = Ok psi /\ wf_mps psi /\ pdims psi = repeat 2%nat L /\
    left_bond psi = outer periodic 2 /\
    forall is, in_range (pdims psi) is -> amp psi is = ghz_amp v is.
Proof.
  intros HL Hv Hp. rewrite ghz_unfold by assumption. eexists. split; [reflexivity|].
  set (f := fun i => ghz_site v v4 L periodic i [left_of periodic 2 i; 2%nat; right_of periodic 2 L i]).
  pose proof (ghz_linked v v4 L periodic HL) as Hlink. fold f in Hlink.
  assert (Hne : map f (seq 0 L) <> []).
  { intros E. apply (f_equal (@length _)) in E. rewrite map_length, seq_length in E. cbn in E. lia. }
  assert (Hpd : pdims (map f (seq 0 L)) = repeat 2%nat L).
  { apply pdims_map_dim1. intros i Hi. unfold f, dim.
    destruct (ghz_wf_dims v v4 L periodic i HL Hi) as (-> & _). reflexivity. }
  split; [split; [exact Hne|exists (outer periodic 2); split; [destruct periodic; cbn; lia|exact Hlink]]|].
  split; [exact Hpd|]. split; [apply (linked_left_bond _ _ _ Hne Hlink)|].
  intros is His. rewrite Hpd in His. apply in_range_repeat2 in His. destruct His as (Hlen & His).
  unfold amp. rewrite (linked_left_bond _ _ _ Hne Hlink).
  destruct (Nat.eq_dec L 1) as [->|HL1].
  - destruct Hp as [->|Hp]; [|lia]. destruct is as [|i [|? ?]]; try discriminate.
    pose proof (Forall_inv His) as Hi; cbn beta in Hi. two i; cbn; ring.
  - destruct L as [|L]; [lia|]. destruct is as [|i is]; [discriminate|].
    pose proof (Forall_inv His) as Hi; pose proof (Forall_inv_tail His) as His'; cbn beta in Hi; clear His.
    cbn [seq map chain].
    assert (Hr : right_of periodic 2 (S L) 0 = 2%nat).
    { unfold right_of. destruct (Nat.ltb_spec 0 (S L - 1)); [|lia]. rewrite orb_true_r. reflexivity. }
    assert (Hl : left_of periodic 2 0 = outer periodic 2) by (unfold left_of, outer; destruct periodic; reflexivity).
    assert (Hs : f 0%nat = set_elem (set_elem (zeros [outer periodic 2; 2; 2]%nat) [0; 0; 0]%nat v4) [if periodic then 1 else 0; 1; 1]%nat v4).
    { unfold f. rewrite Hr, Hl. unfold ghz_site. destruct (Nat.eqb_spec (S L) 1); [lia|]. reflexivity. }
    rewrite Hs. set (A := set_elem _ _ _).
    assert (Hd2 : dim A 2 = 2%nat) by reflexivity. rewrite Hd2.
    transitivity (sum (outer periodic 2) (fun a => sum 2 (fun c => get A [a; i; c] * tail_target periodic v4 is c a))).
    { apply sum_ext. intros a Ha. apply sum_ext. intros c Hc. unfold f.
      rewrite (ghz_tail v v4 (S L) periodic L 1); auto; cbn in Hlen; lia. }
    unfold ghz_amp, tail_target. cbn [forallb].
    destruct periodic; cbn [outer sum]; two i;
      destruct (forallb (Nat.eqb 0%nat) is), (forallb (Nat.eqb 1%nat) is); cbn; try rewrite <- Hv; ring.
Qed.

Lemma sumcfg_const_cfg n a x : (a < 2)%nat ->
  sumcfg (repeat 2%nat n) (fun is => if forallb (Nat.eqb a) is then x else 0) = x.
Proof.
  intros Ha. revert x. induction n as [|n IH]; intros x; [reflexivity|].
  cbn [repeat sumcfg].
  rewrite (sum_single 2 a); auto.
  2:{ intros i Hi Hne. apply sumcfg_zero. intros is His. cbn [forallb].
      destruct (Nat.eqb_spec a i); [congruence|reflexivity]. }
  cbn [forallb]. rewrite Nat.eqb_refl. cbn [andb]. apply IH.
Qed.

Lemma ghz_amp_norm v L : (0 < L)%nat -> kconj v = v -> (1 + 1) * (v * v) = 1 ->
  inner (repeat 2%nat L) (ghz_amp v) (ghz_amp v) = 1.
Proof.
  intros HL Hc Hv. unfold inner. destruct L as [|L]; [lia|]. cbn [repeat sumcfg sum].
  rewrite (sumcfg_ext _ _ (fun is => if forallb (Nat.eqb 0%nat) is then v * v else 0)).
  2:{ intros is _. unfold ghz_amp. cbn [forallb]. change (Nat.eqb 0 0) with true. change (Nat.eqb 1 0) with false.
      cbn [andb]. rewrite orb_false_r.
      destruct (forallb (Nat.eqb 0%nat) is); [rewrite Hc; reflexivity|rewrite kconj_0; ring]. }
  rewrite sumcfg_const_cfg by lia.
  rewrite (sumcfg_ext _ _ (fun is => if forallb (Nat.eqb 1%nat) is then v * v else 0)).
  2:{ intros is _. unfold ghz_amp. cbn [forallb]. change (Nat.eqb 1 1) with true. change (Nat.eqb 0 1) with false.
      cbn [andb orb].
      destruct (forallb (Nat.eqb 1%nat) is); [rewrite Hc; reflexivity|rewrite kconj_0; ring]. }
  rewrite sumcfg_const_cfg by lia. rewrite <- Hv. ring.
Qed.

(** *** Cluster state *)
Definition sgn (n : nat) : K := if Nat.even n then 1 else kopp 1.

Lemma sgn_S n : sgn (S n) = - sgn n.
Proof.
  unfold sgn. rewrite Nat.even_succ, <- Nat.negb_even. destruct (Nat.even n); cbn; ring.
Qed.

Lemma cluster_tail v L n k is a : (3 <= L)%nat -> (k + n = L)%nat -> (1 <= k)%nat -> (1 <= n)%nat ->
  length is = n -> Forall (fun i => i < 2)%nat is -> (a < 2)%nat ->
  chain (map (fun i => cluster_site v L i [left_of false 2 i; 2%nat; right_of false 2 L i]) (seq k n)) is a 0
  = kpow v n * sgn (pairs11 (a :: is)).
Proof.
  intros HL. revert k is a. induction n as [|n IH]; intros k is a Hkn Hk Hn Hlen His Ha; [lia|].
  destruct is as [|i is]; [discriminate|]. pose proof (Forall_inv His) as Hi; pose proof (Forall_inv_tail His) as His'; cbn beta in Hi; clear His.
  cbn [seq map chain].
  assert (Hlft : left_of false 2 k = 2%nat) by (unfold left_of; destruct (Nat.ltb_spec 0 k); [reflexivity|lia]).
  destruct n as [|n].
  - destruct is; [|discriminate]. cbn [seq map].
    assert (Hr : right_of false 2 L k = 1%nat)
      by (unfold right_of; destruct (Nat.ltb_spec k (L - 1)); [lia|reflexivity]).
    rewrite Hlft, Hr. unfold cluster_site.
    destruct (Nat.eqb_spec k 0); [lia|]. destruct (Nat.eqb_spec k (L - 1)); [|lia].
    two a; two i; cbn; ring.
  - assert (Hr : right_of false 2 L k = 2%nat)
      by (unfold right_of; destruct (Nat.ltb_spec k (L - 1)); [reflexivity|lia]).
    rewrite Hlft, Hr.
    set (A := cluster_site v L k [2; 2; 2]%nat).
    assert (HA : forall c, (c < 2)%nat -> get A [a; i; c] =
      if Nat.eqb i c then (if Nat.eqb a 1 && Nat.eqb i 1 then - v else v) else 0).
    { intros c Hc. unfold A, cluster_site. destruct (Nat.eqb_spec k 0); [lia|].
      destruct (Nat.eqb_spec k (L - 1)); [lia|]. two a; two i; two c; reflexivity. }
    assert (Hd2 : dim A 2 = 2%nat).
    { unfold A, cluster_site. destruct (Nat.eqb_spec k 0); [lia|].
      destruct (Nat.eqb_spec k (L - 1)); [lia|]. reflexivity. }
    rewrite Hd2. clearbody A.
    transitivity (sum 2 (fun c => get A [a; i; c] * (kpow v (S n) * sgn (pairs11 (c :: is))))).
    { apply sum_ext. intros c Hc. rewrite (IH (S k)); auto; lia. }
    rewrite (sum_single 2 i); auto.
    2:{ intros c Hc Hne. rewrite HA by assumption. destruct (Nat.eqb_spec i c); [congruence|ring]. }
    rewrite HA, Nat.eqb_refl by assumption.
    change (pairs11 (a :: i :: is)) with ((if Nat.eqb a 1 && Nat.eqb i 1 then 1 else 0) + pairs11 (i :: is))%nat.
    destruct (Nat.eqb a 1 && Nat.eqb i 1).
    + change (1 + pairs11 (i :: is))%nat with (S (pairs11 (i :: is))). rewrite sgn_S.
      cbn [kpow]. ring.
    + change (0 + pairs11 (i :: is))%nat with (pairs11 (i :: is)). cbn [kpow]. ring.
Qed.

Lemma cluster_correct v v4 L : (3 <= L)%nat ->
  exists psi, cluster_state v v4 L = Ok psi /\ open_mps psi /\ pdims psi = repeat 2%nat L /\
    forall is, in_range (pdims psi) is -> amp psi is = cluster_amp v is.
Proof.
  intros HL. unfold cluster_state. destruct (Nat.ltb_spec L 3); [lia|].
  rewrite new_mps_22 by lia. cbn [bind]. eexists. split; [reflexivity|].
  set (f := fun i => cluster_site v L i [left_of false 2 i; 2%nat; right_of false 2 L i]).
  rewrite (map_ext_in _ f).
  2:{ intros i Hi. apply in_seq in Hi. rewrite nth_site_map by lia. reflexivity. }
  assert (Hdw : forall i, (i < L)%nat -> dims (f i) = [left_of false 2 i; 2%nat; right_of false 2 L i] /\ wf (f i)).
  { intros i Hi. unfold f, cluster_site.
    destruct (Nat.eqb i 0), (Nat.eqb i (L - 1)); (split; [reflexivity|repeat apply wf_set_elem; apply wf_mk]). }
  assert (Hlink : linked 1 (map f (seq 0 L)) 1).
  { pose proof (presize_linked f (repeat 2%nat L) 2 false) as H0. rewrite repeat_length in H0. apply H0.
    - lia.
    - apply Forall_forall. intros d Hd. apply repeat_spec in Hd. lia.
    - lia.
    - intros i Hi. destruct (Hdw i Hi) as (H1 & H2). split; [|exact H2].
      rewrite H1. f_equal. f_equal. rewrite (nth_indep _ 0%nat 2%nat) by (rewrite repeat_length; lia).
      symmetry. apply nth_repeat. }
  assert (Hne : map f (seq 0 L) <> []).
  { intros E. apply (f_equal (@length _)) in E. rewrite map_length, seq_length in E. cbn in E. lia. }
  assert (Hpd : pdims (map f (seq 0 L)) = repeat 2%nat L).
  { apply pdims_map_dim1. intros i Hi. unfold dim. destruct (Hdw i Hi) as (-> & _). reflexivity. }
  split; [split; assumption|]. split; [exact Hpd|].
  intros is His. rewrite Hpd in His. apply in_range_repeat2 in His. destruct His as (Hlen & His).
  unfold amp. rewrite (linked_left_bond _ _ _ Hne Hlink), sum_1.
  destruct L as [|L]; [lia|]. destruct is as [|i is]; [discriminate|]. cbn in Hlen.
  pose proof (Forall_inv His) as Hi; pose proof (Forall_inv_tail His) as His'; cbn beta in Hi; clear His. cbn [seq map chain].
  assert (Hr : right_of false 2 (S L) 0 = 2%nat)
    by (unfold right_of; destruct (Nat.ltb_spec 0 (S L - 1)); [reflexivity|lia]).
  assert (HA : forall c, (c < 2)%nat -> get (f 0%nat) [0%nat; i; c] = if Nat.eqb i c then v else 0).
  { intros c Hc. unfold f. rewrite Hr. two i; two c; reflexivity. }
  assert (Hd2 : dim (f 0%nat) 2 = 2%nat) by (unfold dim; rewrite (proj1 (Hdw 0%nat ltac:(lia))), Hr; reflexivity).
  rewrite Hd2.
  transitivity (sum 2 (fun c => get (f 0%nat) [0%nat; i; c] * (kpow v L * sgn (pairs11 (c :: is))))).
  { apply sum_ext. intros c Hc. unfold f. rewrite (cluster_tail v (S L) L 1); auto; lia. }
  rewrite (sum_single 2 i); auto.
  2:{ intros c Hc Hcne. rewrite HA by assumption. destruct (Nat.eqb_spec i c); [congruence|ring]. }
  rewrite HA, Nat.eqb_refl by assumption. unfold cluster_amp. cbn [length kpow].
  injection Hlen as ->. unfold sgn. ring.
Qed.

Lemma cluster_amp_norm v L : kconj v = v -> (1 + 1) * (v * v) = 1 ->
  inner (repeat 2%nat L) (cluster_amp v) (cluster_amp v) = 1.
Proof.
  intros Hc Hv. unfold inner.
  rewrite (sumcfg_ext _ _ (fun _ => kpow (v * v) L)).
  2:{ intros is His. apply in_range_repeat2 in His. destruct His as (Hlen & _).
      unfold cluster_amp. rewrite Hlen.
      assert (Hp : kconj (kpow v L) = kpow v L).
      { clear Hlen. induction L as [|L IH]; cbn [kpow]; [apply kconj_1|rewrite kconj_mul, IH, Hc; reflexivity]. }
      rewrite kconj_mul, Hp, kpow_mul.
      destruct (Nat.even (pairs11 is)); [rewrite kconj_1; ring|rewrite kconj_opp, kconj_1; ring]. }
  induction L as [|L IH]; [cbn; reflexivity|].
  cbn [repeat sumcfg sum kpow]. rewrite <- !sumcfg_mul_l, IH.
  transitivity ((1 + 1) * (v * v)); [ring|exact Hv].
Qed.

(** ** Density matrices *)
Definition unit_mat (d i j : nat) : tensor :=
  mk [d; d] (fun is => delta (nth 0 is 0%nat) i * delta (nth 1 is 0%nat) j).

Lemma get_unit_mat d i j x y : (x < d)%nat -> (y < d)%nat ->
  get (unit_mat d i j) [x; y] = delta x i * delta y j.
Proof. intros Hx Hy. unfold unit_mat. rewrite get_mk by (apply in_range_2; assumption). reflexivity. Qed.

Lemma melem_unit ds k i j f : (k < length ds)%nat -> (i < nth k ds 0)%nat -> (j < nth k ds 0)%nat ->
  melem ds f (site_op k (fun x y => delta x i * delta y j)) f =
  sumcfg (remove_nth k ds) (fun rest => kconj (f (insert_nth k i rest)) * f (insert_nth k j rest)).
Proof.
  revert k f. induction ds as [|d ds IH]; intros k f Hk Hi Hj; cbn in Hk; [lia|].
  destruct k as [|k]; cbn [nth] in Hi, Hj.
  - unfold melem. cbn [sumcfg remove_nth insert_nth site_op].
    transitivity (sum d (fun x => delta x i * sum d (fun y => delta y j *
      sumcfg ds (fun is => sumcfg ds (fun js => kconj (f (x :: is)) * id_op is js * f (y :: js)))))).
    { apply sum_ext. intros x Hx. rewrite sum_mul_l.
      rewrite sumcfg_sum_swap. apply sum_ext. intros y Hy.
      rewrite !sumcfg_mul_l. apply sumcfg_ext. intros is His.
      rewrite !sumcfg_mul_l. apply sumcfg_ext. intros js Hjs. ring. }
    rewrite sum_delta_l by assumption. rewrite sum_delta_l by assumption.
    apply sumcfg_ext. intros is His.
    transitivity (sumcfg ds (fun js => id_op is js * (kconj (f (i :: is)) * f (j :: js)))).
    + apply sumcfg_ext. intros js Hjs. ring.
    + rewrite sumcfg_id_op by assumption. reflexivity.
  - unfold melem in *. cbn [sumcfg remove_nth insert_nth site_op].
    apply sum_ext. intros x Hx.
    rewrite <- (IH k (fun is => f (x :: is))) by (auto; lia).
    apply sumcfg_ext. intros is His.
    transitivity (sum d (fun y => delta x y * sumcfg ds (fun js =>
       kconj (f (x :: is)) * site_op k (fun x0 y0 => delta x0 i * delta y0 j) is js * f (y :: js)))).
    + apply sum_ext. intros y Hy. rewrite sumcfg_mul_l. apply sumcfg_ext. intros js Hjs. ring.
    + rewrite sum_delta_l' by assumption. reflexivity.
Qed.

Lemma firstn_app_len {A} (l1 l2 : list A) : firstn (length l1) (l1 ++ l2) = l1.
Proof. rewrite firstn_app, Nat.sub_diag, firstn_all. cbn. apply app_nil_r. Qed.

Lemma list_split_nth {A} k (l : list A) d : (k < length l)%nat ->
  l = firstn k l ++ nth k l d :: skipn (S k) l.
Proof.
  intros H. rewrite <- (firstn_skipn k l) at 1. f_equal.
  pose proof (firstn_skipn_S k (length l) l d H) as E.
  rewrite !firstn_all2 in E by (rewrite skipn_length; lia). exact E.
Qed.

Lemma ops_ok_none p : ops_ok p p (map (fun _ : nat => None) (seq 0 (length p))).
Proof.
  apply (ops_ok_map p p (fun _ => None) 0 eq_refl). intros k Hk. reflexivity.
Qed.

Lemma ops_ok_none_at p s : ops_ok p p (map (fun _ : nat => None) (seq s (length p))).
Proof.
  apply (ops_ok_map p p (fun _ => None) s eq_refl). intros k Hk. reflexivity.
Qed.

(** The value computed by density_matrix, any scalars: the environment carries the conjugate on the
    wrong side. *)
Lemma density_matrix_value psi (k : nat) : wf_mps psi -> (0 < k)%nat -> (S k < length psi)%nat ->
  exists rho, density_matrix psi (Z.of_nat k) = Ok rho /\
    dims rho = [nth k (pdims psi) 0; nth k (pdims psi) 0]%nat /\
    (exists D ma mb A pre suf,
       A = site psi k /\ pre = firstn k psi /\ suf = skipn (S k) psi /\
       linked D pre ma /\ dims A = [ma; nth k (pdims psi) 0%nat; mb] /\ linked mb suf D /\ (0 < D)%nat /\
       forall i j, (i < nth k (pdims psi) 0)%nat -> (j < nth k (pdims psi) 0)%nat ->
         get rho [i; j] =
         sum ma (fun a2 => sum mb (fun a3 => sum ma (fun b2 => sum mb (fun b3 =>
           sum D (fun a1 => sum D (fun b1 =>
             TM pre pre (map (fun _ => None) (seq 0 k)) a1 b1 a2 b2 *
             (get A [a2; i; a3] * kconj (get A [b2; j; b3])) *
             TM suf suf (map (fun _ => None) (seq (S k) (length psi - S k))) a3 b3 a1 b1))))))).
Proof.
  intros (Hne & D & HD & HL) Hk0 Hk1.
  assert (Hk : (k < length psi)%nat) by lia.
  unfold density_matrix, site_at.
  assert (Hr : ((0 <=? Z.of_nat k)%Z && (Z.of_nat k <? Z.of_nat (length psi))%Z) = true).
  { apply andb_true_intro. split; [apply Z.leb_le|apply Z.ltb_lt]; lia. }
  rewrite Hr. cbn [bind]. rewrite Nat2Z.id.
  set (A := site psi k). set (pre := firstn k psi). set (suf := skipn (S k) psi).
  pose proof (list_split_nth k psi empty Hk) as Hsplit. fold (site psi k) in Hsplit.
  fold A pre suf in Hsplit.
  assert (HL' := HL). rewrite Hsplit in HL'. apply linked_app in HL'.
  destruct HL' as (ma & Hpre & (d & mb & HA & HwA & Hd & Hmb & Hsuf)).
  assert (Hma : (0 < ma)%nat) by (eapply linked_pos; eauto).
  assert (Hpk : nth k (pdims psi) 0%nat = d).
  { unfold pdims. rewrite (nth_indep _ 0%nat (dim empty 1)) by (rewrite map_length; exact Hk).
    rewrite map_nth with (f := fun A => dim A 1). fold (site psi k). fold A. unfold dim. rewrite HA. reflexivity. }
  assert (Hlpre : length pre = k) by (unfold pre; apply firstn_length_le; lia).
  assert (Hlsuf : length suf = (length psi - S k)%nat) by (unfold suf; apply skipn_length).
  set (oL := map (fun _ : nat => @None tensor) (seq 0 k)).
  set (oR := map (fun _ : nat => @None tensor) (seq (S k) (length psi - S k))).
  assert (HML : env_ok D D pre pre oL ma ma (aux_left psi psi k)).
  { unfold aux_left. rewrite (envR_seq psi psi (fun _ => None)) by lia.
    change (skipn 0 psi) with psi. fold pre. apply envR_ok; auto.
    - intros E. apply (f_equal (@length _)) in E. rewrite Hlpre in E. cbn in E. lia.
    - fold oL. unfold oL. rewrite <- Hlpre. apply ops_ok_none. }
  assert (HMR : env_ok mb mb suf suf oR D D (aux_right psi psi k)).
  { unfold aux_right. rewrite (envL_seq psi psi (fun _ => None)) by lia.
    rewrite (firstn_all2 (n := (length psi - S k)%nat)) by (rewrite skipn_length; lia).
    fold suf. apply envL_ok; auto.
    - intros E. apply (f_equal (@length _)) in E. rewrite Hlsuf in E. cbn in E. lia.
    - rewrite <- Hlsuf. apply ops_ok_none_at. }
  destruct (env_ok_nonempty _ _ _ _ _ _ _ _ HML) as (_ & HrL).
  destruct (env_ok_nonempty _ _ _ _ _ _ _ _ HMR) as (_ & HrR).
  rewrite HrL, HrR. cbn [Nat.eqb andb].
  destruct HML as (HwL & HdL & _ & _ & _ & _ & HgL).
  destruct HMR as (HwR & HdR & _ & _ & _ & _ & HgR).
  set (ML := aux_left psi psi k) in *. set (MR := aux_right psi psi k) in *.
  assert (DA : dim A 1 = d) by (unfold dim; rewrite HA; reflexivity).
  assert (DL2 : dim ML 2 = ma) by (unfold dim; rewrite HdL; reflexivity).
  assert (DL3 : dim ML 3 = ma) by (unfold dim; rewrite HdL; reflexivity).
  assert (DR0 : dim MR 0 = mb) by (unfold dim; rewrite HdR; reflexivity).
  assert (DR1 : dim MR 1 = mb) by (unfold dim; rewrite HdR; reflexivity).
  assert (DR2 : dim MR 2 = D) by (unfold dim; rewrite HdR; reflexivity).
  assert (DR3 : dim MR 3 = D) by (unfold dim; rewrite HdR; reflexivity).
  rewrite DA, DL2, DL3, DR0, DR1, DR2, DR3.
  set (E1' := foldin (reshape MR [mb; mb; (D * D)%nat]) 2 (reshape ML [(D * D)%nat; ma; ma]) 0).
  set (E2 := permute E1' 0 3).
  set (A' := reshape (permute A 0 1) [d; (ma * mb)%nat]).
  set (E3 := foldc A' 1 (reshape E2 [(ma * mb)%nat; (ma * mb)%nat]) 0).
  set (E4 := fold E3 1 A' 1).
  assert (HE1 : dims E1' = [mb; mb; ma; ma]) by reflexivity.
  assert (HE2 : dims E2 = [ma; mb; ma; mb]) by reflexivity.
  assert (HA' : dims A' = [d; (ma * mb)%nat]) by reflexivity.
  assert (HE3 : dims E3 = [d; (ma * mb)%nat]) by reflexivity.
  assert (HE4 : dims E4 = [d; d]) by reflexivity.
  assert (HpA : dims (permute A 0 1) = [d; ma; mb]) by (unfold permute; rewrite HA; reflexivity).
  assert (GA : forall i a2 a3, (i < d)%nat -> (a2 < ma)%nat -> (a3 < mb)%nat ->
     get A' [i; (a2 + ma * a3)%nat] = get A [a2; i; a3]).
  { intros i a2 a3 Hi H2 H3. unfold A'.
    rewrite (get_reshape _ _ _ [i; a2; a3]) by (rewrite HpA; cbn; ring).
    unfold permute. rewrite HA. cbn [swap_nth replace_nth nth].
    rewrite get_mk by (apply in_range_3; assumption). reflexivity. }
  assert (G1 : forall a3 b3 a2 b2, (a3 < mb)%nat -> (b3 < mb)%nat -> (a2 < ma)%nat -> (b2 < ma)%nat ->
     get E1' [a3; b3; a2; b2] = sum D (fun b1 => sum D (fun a1 =>
        TM suf suf oR a3 b3 a1 b1 * TM pre pre oL a1 b1 a2 b2))).
  { intros a3 b3 a2 b2 H1 H2 H3 H4. unfold E1', foldin, rank, dim.
    cbn [dims reshape firstn skipn remove_nth app nth length Nat.sub].
    rewrite get_mk by (apply in_range_4; assumption). cbn [firstn skipn app insert_nth].
    rewrite sum_merge. apply sum_ext. intros b1 Hb1. apply sum_ext. intros a1 Ha1. f_equal.
    - rewrite (get_reshape MR _ _ [a3; b3; a1; b1]) by (rewrite HdR; cbn; ring). apply HgR; assumption.
    - rewrite (get_reshape ML _ _ [a1; b1; a2; b2]) by (rewrite HdL; cbn; ring). apply HgL; assumption. }
  assert (G2 : forall a3 b3 a2 b2, (a3 < mb)%nat -> (b3 < mb)%nat -> (a2 < ma)%nat -> (b2 < ma)%nat ->
     get E2 [b2; b3; a2; a3] = get E1' [a3; b3; a2; b2]).
  { intros a3 b3 a2 b2 H1 H2 H3 H4. unfold E2, permute. rewrite HE1. cbn [swap_nth replace_nth nth].
    rewrite get_mk by (apply in_range_4; assumption). reflexivity. }
  assert (G3 : forall j a2 a3, (j < d)%nat -> (a2 < ma)%nat -> (a3 < mb)%nat ->
     get E3 [j; (a2 + ma * a3)%nat] = sum mb (fun b3 => sum ma (fun b2 =>
        kconj (get A [b2; j; b3]) * get E1' [a3; b3; a2; b2]))).
  { intros j a2 a3 Hj H2 H3. unfold E3, foldc, fold, rank, dim.
    cbn [dims tconj reshape A' remove_nth app nth length Nat.sub].
    rewrite get_mk by (apply in_range_2; nia). cbn [firstn skipn insert_nth].
    rewrite sum_merge. apply sum_ext. intros b3 Hb3. apply sum_ext. intros b2 Hb2.
    fold A'. rewrite get_tconj, GA by assumption. f_equal.
    rewrite (get_reshape E2 _ _ [b2; b3; a2; a3]) by (rewrite HE2; cbn; ring).
    apply G2; assumption. }
  eexists. split; [reflexivity|]. rewrite Hpk. split; [reflexivity|].
  exists D, ma, mb, A, pre, suf. repeat (split; [solve [auto]|]).
  intros i j Hi Hj.
  rewrite (get_transpose E4 d d) by assumption.
  unfold E4, fold, rank, dim. rewrite HE3, HA'. cbn [remove_nth app nth length Nat.sub].
  rewrite get_mk by (apply in_range_2; assumption). cbn [firstn skipn insert_nth].
  rewrite sum_merge. rewrite sum_swap. apply sum_ext. intros a2 H2. apply sum_ext. intros a3 H3.
  rewrite G3, GA by assumption. rewrite sum_mul_r.
  rewrite sum_swap.
  transitivity (sum mb (fun b3 => sum ma (fun b2 => sum D (fun a1 => sum D (fun b1 =>
     TM pre pre oL a1 b1 a2 b2 * (get A [a2; i; a3] * kconj (get A [b2; j; b3])) *
       TM suf suf oR a3 b3 a1 b1))))).
  2:{ reflexivity. }
  apply sum_ext. intros b3 H4. rewrite sum_mul_r. apply sum_ext. intros b2 H5.
  rewrite G1 by assumption. rewrite sum_swap.
  rewrite sum_mul_l, sum_mul_r. apply sum_ext. intros a1 H6.
  rewrite sum_mul_l, sum_mul_r. apply sum_ext. intros b1 H7. ring.
Qed.


Lemma density_matrix_real psi (k : nat) : (forall x : K, kconj x = x) ->
  wf_mps psi -> (0 < k)%nat -> (S k < length psi)%nat ->
  exists rho, density_matrix psi (Z.of_nat k) = Ok rho /\
    dims rho = [nth k (pdims psi) 0; nth k (pdims psi) 0]%nat /\
    forall i j, (i < nth k (pdims psi) 0)%nat -> (j < nth k (pdims psi) 0)%nat ->
      get rho [i; j] = reduced_dm psi k i j.
Proof.
  intros Hreal Hw Hk0 Hk1. assert (Hk : (k < length psi)%nat) by lia.
  destruct (density_matrix_value psi k Hw Hk0 Hk1)
    as (rho & Hrho & Hdrho & D & ma & mb & A & pre & suf & EA & Epre & Esuf & Hpre & HA & Hsuf & HD & Hval).
  exists rho. split; [exact Hrho|]. split; [exact Hdrho|].
  intros i j Hi Hj. rewrite Hval by assumption.
  set (d := nth k (pdims psi) 0%nat) in *.
  set (oL := map (fun _ : nat => @None tensor) (seq 0 k)).
  set (oR := map (fun _ : nat => @None tensor) (seq (S k) (length psi - S k))).
  assert (Hlpre : length pre = k) by (rewrite Epre; apply firstn_length_le; lia).
  assert (Hlsuf : length suf = (length psi - S k)%nat) by (rewrite Esuf; apply skipn_length).
  assert (HoL : ops_ok pre pre oL) by (unfold oL; rewrite <- Hlpre; apply ops_ok_none).
  pose proof (list_split_nth k psi empty Hk) as Hsplit. fold (site psi k) in Hsplit.
  rewrite <- EA, <- Epre, <- Esuf in Hsplit.
  assert (Hll : linked D psi D).
  { destruct Hw as (Hne & D' & HD' & HL). rewrite Hsplit in HL |- *. apply linked_app in HL.
    destruct HL as (m & H1 & H2). destruct pre as [|B pre']; [cbn in Hlpre; lia|].
    cbn in Hpre, H1. destruct Hpre as (d1 & c1 & E1' & _). destruct H1 as (d2 & c2 & E2' & R).
    rewrite E1' in E2'. injection E2' as -> -> ->.
    cbn. exists d2, c2. split; [exact E1'|]. destruct R as (R1 & R2 & R3 & R4). repeat (split; [assumption|]).
    apply linked_app. exists m. split; assumption. }
  assert (HAl : linked ma (A :: suf) D).
  { rewrite Hsplit in Hll. apply linked_app in Hll. destruct Hll as (m & _ & H2).
    cbn in H2 |- *. destruct H2 as (d2 & c2 & E2' & R). rewrite HA in E2'. injection E2' as <- <- <-.
    exists d, mb. split; [exact HA|exact R]. }
  assert (HAs : linked ma [A] mb).
  { cbn in HAl |- *. destruct HAl as (d2 & c2 & E2' & R1 & R2 & R3 & _). rewrite HA in E2'. injection E2' as <- <-.
    exists d, mb. auto 10. }
  set (U := unit_mat d i j).
  assert (Hred : reduced_dm psi k i j = melem (pdims psi) (amp psi) (site_op k (mat U)) (amp psi)).
  { transitivity (melem (pdims psi) (amp psi) (site_op k (fun x y => delta x i * delta y j)) (amp psi)).
    - rewrite melem_unit by (rewrite ?length_pdims; auto). unfold reduced_dm.
      apply sumcfg_ext. intros rest _. rewrite !Hreal. reflexivity.
    - apply melem_ext. intros is js His Hjs. apply (site_op_ext (pdims psi)); auto.
      intros x y Hx Hy. unfold mat, U. symmetry. apply get_unit_mat; assumption. }
  rewrite Hred. destruct Hw as (Hne & _).
  assert (Htr : melem (pdims psi) (amp psi) (site_op k (mat U)) (amp psi) =
    sum D (fun x => sum D (fun y => TM psi psi (oL ++ [Some U] ++ oR) x y x y))).
  { rewrite (trace_TM psi psi _ D D Hne Hne Hll Hll). unfold melem.
    apply sumcfg_ext. intros is His. apply sumcfg_ext. intros js Hjs. f_equal. f_equal.
    apply in_range_length in His, Hjs. rewrite length_pdims in His, Hjs.
    assert (Eo : oL ++ [Some U] ++ oR = map (fun m => if Nat.eqb m k then Some U else None) (seq 0 (length psi))).
    { replace (length psi) with (k + (1 + (length psi - S k)))%nat by lia.
      rewrite !seq_app, !map_app. cbn [seq map]. rewrite Nat.add_0_l, Nat.eqb_refl.
      unfold oL, oR. f_equal; [|f_equal].
      - apply map_ext_in. intros m Hm. apply in_seq in Hm. destruct (Nat.eqb_spec m k); [lia|reflexivity].
      - replace (k + 1)%nat with (S k) by lia. apply map_ext_in. intros m Hm. apply in_seq in Hm.
        destruct (Nat.eqb_spec m k); [lia|reflexivity]. }
    rewrite Eo, prodop_product_op by assumption.
    rewrite <- (product_op_site 0 k) by lia. apply product_op_ext. intros m x y Hm.
    cbn [Nat.add]. destruct (Nat.eqb m k); reflexivity. }
  rewrite Htr. symmetry.
  transitivity (sum D (fun a1 => sum D (fun b1 => sum ma (fun a2 => sum ma (fun b2 => sum mb (fun a3 => sum mb (fun b3 =>
     TM pre pre oL a1 b1 a2 b2 * (get A [a2; i; a3] * kconj (get A [b2; j; b3])) * TM suf suf oR a3 b3 a1 b1))))))).
  { apply sum_ext. intros a1 Ha1. apply sum_ext. intros b1 Hb1.
    rewrite Hsplit at 1. rewrite Hsplit at 1.
    rewrite (TM_app D D pre pre oL ma ma (A :: suf) (A :: suf) ([Some U] ++ oR) D D) by assumption.
    apply sum_ext. intros a2 Ha2. apply sum_ext. intros b2 Hb2.
    change (A :: suf) with ([A] ++ suf).
    rewrite (TM_app ma ma [A] [A] [Some U] mb mb suf suf oR D D); try assumption.
    2:{ cbn. split; [|exact I]. unfold dim. rewrite HA. reflexivity. }
    rewrite sum_mul_l. apply sum_ext. intros a3 Ha3. rewrite sum_mul_l. apply sum_ext. intros b3 Hb3.
    rewrite (TM_single A A (Some U) _ _ _ _ ma d mb ma d mb) by assumption.
    assert (HE : E1 A A (Some U) a2 b2 a3 b3 = get A [a2; i; a3] * kconj (get A [b2; j; b3])).
    { unfold E1, dim. rewrite HA. cbn [nth opel].
      transitivity (sum d (fun x => delta x i * sum d (fun y => delta y j * (get A [a2; x; a3] * get A [b2; y; b3])))).
      - apply sum_ext. intros x Hx. rewrite sum_mul_l. apply sum_ext. intros y Hy.
        unfold U. rewrite get_unit_mat by assumption. rewrite Hreal. ring.
      - rewrite sum_delta_l by assumption. rewrite sum_delta_l by assumption. rewrite Hreal. reflexivity. }
    rewrite HE. ring. }
  transitivity (sum ma (fun a2 => sum ma (fun b2 => sum mb (fun a3 => sum mb (fun b3 => sum D (fun a1 => sum D (fun b1 =>
     TM pre pre oL a1 b1 a2 b2 * (get A [a2; i; a3] * kconj (get A [b2; j; b3])) * TM suf suf oR a3 b3 a1 b1))))))).
  { assert (Hsw : forall m n p (F : nat -> nat -> nat -> K), sum m (fun x => sum n (fun y => sum p (fun z => F x y z))) =
      sum p (fun z => sum m (fun x => sum n (fun y => F x y z)))).
    { intros m n p F. transitivity (sum m (fun x => sum p (fun z => sum n (fun y => F x y z)))).
      - apply sum_ext. intros x _. apply sum_swap.
      - apply sum_swap. }
    rewrite Hsw. apply sum_ext. intros a2 _. rewrite Hsw. apply sum_ext. intros b2 _.
    rewrite Hsw. apply sum_ext. intros a3 _. rewrite Hsw. reflexivity. }
  apply sum_ext. intros a2 _. apply sum_swap.
Qed.

(** At the edges the routine fails. *)
Lemma density_matrix_edge psi (k : nat) : wf_mps psi -> (k = 0 \/ S k = length psi)%nat ->
  density_matrix psi (Z.of_nat k) = Abort.
Proof.
  intros (Hne & _) Hk. assert (HL : (0 < length psi)%nat) by (destruct psi; [congruence|cbn; lia]).
  unfold density_matrix, site_at.
  assert (Hr : ((0 <=? Z.of_nat k)%Z && (Z.of_nat k <? Z.of_nat (length psi))%Z) = true).
  { apply andb_true_intro. split; [apply Z.leb_le|apply Z.ltb_lt]; lia. }
  rewrite Hr. cbn [bind]. rewrite Nat2Z.id.
  destruct Hk as [->|Hk].
  - reflexivity.
  - assert (E : aux_right psi psi k = empty).
    { unfold aux_right. replace (length psi - S k)%nat with 0%nat by lia. reflexivity. }
    rewrite E. rewrite andb_false_r. reflexivity.
Qed.

End Facts.
