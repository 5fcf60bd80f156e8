(** Proofs about the Trotter solvers: sequences of layers *)
From Coq Require Import Reals Lra Bool List Arith ZArith Lia Ring.
From Verif Require Import Scalar ScalarFacts RScal Tensor TensorFacts Spec MpsModel MpsFacts EnvFacts ExpectedFacts
  HamModel HamFacts SparseSpec SparseFacts CanonSpec CanonModel TruncFacts CanonFacts CanonSweep
  StateFacts2 TrotterSpec TrotterModel TrotterFacts TrotterApply TrotterRun TrotterLoop.
Import ListNotations.
Local Open Scope K_scope.

Lemma bond_in_layer j n : (S j < n)%nat -> In (j, true) (blocks (Nat.even j) 0 n).
Proof.
  intros H. destruct (Nat.even j) eqn:E.
  - apply Nat.even_spec in E. destruct E as (q & ->). apply blocks_true_in. exists q. lia.
  - assert (Ho : Nat.odd j = true) by (unfold Nat.odd; rewrite E; reflexivity). apply Nat.odd_spec in Ho. destruct Ho as (q & ->).
    destruct n as [|n]; [lia|]. apply blocks_false_in. right. apply blocks_true_in. exists q. lia.
Qed.

Section Exec.
Context {RS : RScal}.
Add Ring Kring : k_ring.
Variable svd : tensor -> tensor * list R * tensor.
Variable flag : R.
Hypothesis Hsvd : svd_contract svd.
Variable simplify : mps -> nat -> bool -> result (mps * R).

(** A unitary of parity k for sites of dimensions ds *)
Definition layer_ok (u : unitary) (k : nat) (ds : list nat) : Prop :=
  (k <= 1)%nat /\ u_k0 u = k /\ (exists m, (u_kN u = k + 2 * m /\ u_kN u <= length ds < u_kN u + 2)%nat) /\ length (u_U u) = length ds /\
  forall x, In x (blocks (is_even k) 0 (length ds)) -> is_matrix (u_at u (fst x)) (block_dim ds x) (block_dim ds x).

Definition u_op (u : unitary) (k : nat) (ds : list nat) : list nat -> list nat -> K := layer_op (is_even k) 0 ds (fun q => mat (u_at u q)).

Lemma apply_any u k psi D D' sense tol Dmax : layer_ok u k (pdims psi) -> linked D psi D' -> (0 < D)%nat -> (0 < length psi)%nat ->
  (Dmax = 0%nat \/ flag <> 0%R) -> eff_tol flag tol <> 0%R ->
  exists P e, u_apply svd flag u psi sense tol Dmax false = Ok (P, (- (if Z.eqb sense 0 then 1 else sense))%Z, e) /\
  linked D P D' /\ pdims P = pdims psi /\ (0 <= e)%R /\
  ((1 <= eff_tol flag tol)%R -> Dmax = 0%nat -> e = 0%R) /\
  (e = 0%R -> exact_mode flag Dmax -> acted D D' psi P (u_op u k (pdims psi))) /\
  (forall j, ~ In (j, true) (blocks (is_even k) 0 (length psi)) -> (dim (site P (S j)) 0 <= dim (site psi (S j)) 0)%nat) /\
  ((0 < Dmax)%nat -> forall j, In (j, true) (blocks (is_even k) 0 (length psi)) -> (dim (site P (S j)) 0 <= Dmax)%nat).
Proof.
  intros (H1 & H2 & H3 & H4 & H5) HL HD HN Hf Ht. rewrite length_pdims in *.
  apply (u_apply_ok svd flag Hsvd u psi D D' Dmax (is_even k) tol HL HD Hf Ht H5 k H1 eq_refl H2 H3 H4 HN sense).
Qed.

Lemma left_bond_linked D psi D' : linked D psi D' -> psi <> [] -> left_bond psi = D.
Proof. intros H Hn. destruct psi as [|A psi]; [congruence|]. destruct H as (d & c & H & _). cbn. unfold dim. rewrite H. reflexivity. Qed.

Lemma amp_acted D psi P M : linked D psi D -> linked D P D -> pdims P = pdims psi -> psi <> [] -> acted D D psi P M ->
  forall is, in_range (pdims psi) is -> amp P is = act (pdims psi) M (amp psi) is.
Proof.
  intros HL HP Hp Hn HA is His. assert (HPn : P <> []) by (intros ->; destruct psi; [congruence|discriminate Hp]).
  unfold amp, act. rewrite (left_bond_linked D P D HP HPn), (left_bond_linked D psi D HL Hn).
  transitivity (sum D (fun a => sumcfg (pdims psi) (fun js => M is js * chain psi js a a))).
  - apply sum_ext. intros a Ha. apply HA; assumption.
  - rewrite <- sumcfg_sum_swap. apply sumcfg_ext. intros js Hjs. rewrite sum_mul_l. reflexivity.
Qed.

Lemma act_ext ds M f g is : (forall js, in_range ds js -> f js = g js) -> act ds M f is = act ds M g is.
Proof. intros H. unfold act. apply sumcfg_ext. intros js Hjs. rewrite H by exact Hjs. reflexivity. Qed.
Lemma acts_ext ds (Ms : list (list nat -> list nat -> K)) : forall f g, (forall js, in_range ds js -> f js = g js) -> forall is, in_range ds is ->
  fold_left (fun f M => act ds M f) Ms f is = fold_left (fun f M => act ds M f) Ms g is.
Proof.
  induction Ms as [|M Ms IH]; intros f g H is His; cbn [fold_left]; [apply H; exact His|].
  apply IH; [|exact His]. intros js Hjs. apply act_ext. exact H.
Qed.

Variable us : list unitary.
Variable par : nat -> nat.
Variable ds : list nat.
Hypothesis HN : (0 < length ds)%nat.
Definition u_no (n : nat) : unitary := nth n us (mkU 0 0 []).

(** Layers without truncation to a maximal dimension *)
Lemma exec_exact D : (0 < D)%nat -> forall cs, (forall c : nat * R, In c cs -> layer_ok (u_no (fst c)) (par (fst c)) ds /\ eff_tol flag (snd c) <> 0%R) ->
  forall psi s, linked D psi D -> pdims psi = ds ->
  exists psi' s' es, exec_calls svd flag simplify us (map (fun c : nat * R => Apply (fst c) (snd c) 0 false) cs) (psi, s) = Ok (psi', s', es) /\
    linked D psi' D /\ pdims psi' = ds /\ length es = length cs /\ Forall (fun e => 0 <= e)%R es /\
    ((forall c, In c cs -> (1 <= eff_tol flag (snd c))%R) -> Forall (fun e => e = 0%R) es) /\
    (Forall (fun e => e = 0%R) es -> forall is, in_range ds is ->
       amp psi' is = fold_left (fun f M => act ds M f) (map (fun c : nat * R => u_op (u_no (fst c)) (par (fst c)) ds) cs) (amp psi) is).
Proof.
  intros HD. induction cs as [|c cs IH]; intros Hc psi s HL Hp.
  - exists psi, s, []. cbn. repeat split; auto.
  - destruct (Hc c (or_introl eq_refl)) as (Hu & Ht).
    assert (Hlen : length psi = length ds) by (rewrite <- Hp; symmetry; apply length_pdims).
    destruct (apply_any (u_no (fst c)) (par (fst c)) psi D D s (snd c) 0) as (P & e & E & A1 & A2 & A3 & A4 & A5 & _); try assumption; [rewrite Hp; exact Hu|lia|left; reflexivity|].
    rewrite Hp in *.
    destruct (IH (fun c' H => Hc c' (or_intror H)) P (- (if Z.eqb s 0 then 1 else s))%Z A1 A2) as (psi' & s' & es & E2 & B1 & B2 & B3 & B4 & B5 & B6).
    exists psi', s', (e :: es). cbn [map exec_calls exec_call fst snd]. unfold u_no in E. rewrite E. cbn [bind]. rewrite E2. cbn [bind].
    split; [reflexivity|]. split; [exact B1|]. split; [exact B2|]. split; [cbn; congruence|]. split; [constructor; assumption|]. split.
    + intros H. constructor; [apply A4; [apply H; left; reflexivity|reflexivity]|]. apply B5. intros c' Hc'. apply H. right. exact Hc'.
    + intros He is His. pose proof (Forall_inv He) as He1. pose proof (Forall_inv_tail He) as He2. cbn [fold_left]. rewrite (B6 He2 is His).
      apply acts_ext; [|exact His]. intros js Hjs.
      assert (Hne : psi <> []) by (intros ->; cbn in Hlen; lia).
      pose proof (amp_acted D psi P (u_op (u_no (fst c)) (par (fst c)) ds) HL A1) as X. rewrite Hp in X. apply X; auto. apply A5; [exact He1|left; reflexivity].
Qed.

(** Layers with a maximal dimension; [nrm] tells which ones are followed by a normalisation *)
Lemma norm_bonds psi s psi' D D' : linked D psi D' -> (0 < D)%nat -> flag <> 0%R -> (0 < length psi)%nat -> normal_form svd flag psi s = Ok psi' ->
  linked D psi' D' /\ pdims psi' = pdims psi /\ forall j, (dim (site psi' j) 0 <= dim (site psi j) 0)%nat.
Proof.
  intros HL HD Hf Hn. unfold normal_form, normal_form_at.
  set (z := (if (s <? 0)%Z then 0 else Z.of_nat (length psi) - 1)%Z).
  assert (Hz : exists n, z = Z.of_nat n /\ (n < length psi)%nat).
  { unfold z. destruct (s <? 0)%Z; [exists 0%nat; lia|]. exists (length psi - 1)%nat. lia. }
  destruct Hz as (n & -> & Hnn).
  destruct (canonical_form_at_ok svd flag Hsvd D D' psi n HL HD (or_introl Hf) Hnn) as (P & E & (S1 & S2 & S3 & _) & _).
  rewrite E. cbn [bind]. rewrite Z.max_r by lia.
  assert (HlP : length P = length psi) by (rewrite <- (length_pdims P), S2; apply length_pdims).
  rewrite site_at_ok by lia. cbn [bind]. destruct (Req_EM_T (norm2_tensor (site P n)) 0) as [|Hne]; [discriminate|].
  rewrite Nat2Z.id. intros H. apply Ok_inj' in H. subst psi'.
  set (t := site P n) in *. set (t' := tscale (rinj (/ norm2_tensor t)) t).
  pose proof (list_split_nth n P empty ltac:(lia)) as EP. fold (site P n) in EP. fold t in EP.
  pose proof S1 as S1'. rewrite EP in S1'. apply linked_app in S1'. destruct S1' as (m & L1 & d & c & Hd & Hw & Hd0 & Hc0 & L2).
  assert (Hlp : length (firstn n P) = n) by (rewrite firstn_length; lia).
  assert (ER : replace_nth n t' P = firstn n P ++ t' :: skipn (S n) P) by (rewrite EP at 1; rewrite <- Hlp at 1; apply replace_nth_len).
  assert (Hd' : dims t' = dims t) by reflexivity.
  split; [|split].
  - rewrite ER. apply linked_app. exists m. split; [exact L1|]. exists d, c. rewrite Hd'. repeat split; auto. apply wf_tscale. exact Hw.
  - rewrite <- S2. rewrite ER. rewrite EP at 3. rewrite !pdims_app. cbn [pdims map]. unfold dim. rewrite Hd'. reflexivity.
  - intros j. etransitivity; [|apply S3]. unfold site. destruct (Nat.eq_dec j n) as [->|Hjn].
    + rewrite nth_replace_nth_eq by lia. unfold dim. rewrite Hd'. fold (site P n). fold t. lia.
    + rewrite nth_replace_nth_neq by lia. lia.
Qed.

Lemma exec_bonds D Dmax : (0 < D)%nat -> (0 < Dmax)%nat -> flag <> 0%R -> forall cs,
  (forall c : nat * (R * bool), In c cs -> layer_ok (u_no (fst c)) (par (fst c)) ds /\ eff_tol flag (fst (snd c)) <> 0%R) ->
  forall psi s psi' s' es, linked D psi D -> pdims psi = ds ->
  exec_calls svd flag simplify us (map (fun c : nat * (R * bool) => Apply (fst c) (fst (snd c)) Dmax (snd (snd c))) cs) (psi, s) = Ok (psi', s', es) ->
  linked D psi' D /\ pdims psi' = ds /\
  forall j, (dim (site psi (S j)) 0 <= Dmax)%nat \/ (exists c, In c cs /\ In (j, true) (blocks (is_even (par (fst c))) 0 (length ds))) ->
    (dim (site psi' (S j)) 0 <= Dmax)%nat.
Proof.
  intros HD HDm Hf. induction cs as [|c cs IH]; intros Hc psi s psi' s' es HL Hp E.
  - cbn in E. apply Ok_inj' in E. injection E as <- <- <-. split; [exact HL|]. split; [exact Hp|]. intros j [H|(c & [] & _)]. exact H.
  - destruct (Hc c (or_introl eq_refl)) as (Hu & Ht).
    assert (Hlen : length psi = length ds) by (rewrite <- Hp; symmetry; apply length_pdims).
    destruct (apply_any (u_no (fst c)) (par (fst c)) psi D D s (fst (snd c)) Dmax) as (P & e & E1 & A1 & A2 & _ & _ & _ & A6 & A7); try assumption; [rewrite Hp; exact Hu|lia|right; exact Hf|].
    rewrite Hp in *. rewrite Hlen in *.
    cbn [map exec_calls exec_call fst snd] in E. fold (u_no (fst c)) in E.
    assert (E3 : exists P1 s1 e1, u_apply svd flag (u_no (fst c)) psi s (fst (snd c)) Dmax (snd (snd c)) = Ok (P1, s1, e1) /\ linked D P1 D /\ pdims P1 = ds /\
       forall j, (dim (site P1 j) 0 <= dim (site P j) 0)%nat).
    { destruct (snd (snd c)) eqn:En.
      - destruct (u_apply svd flag (u_no (fst c)) psi s (fst (snd c)) Dmax true) as [[[P1 s1] e1]|] eqn:E2; [|discriminate E].
        exists P1, s1, e1. split; [reflexivity|].
        unfold u_apply in E1, E2. destruct (Nat.ltb (length (u_U (u_no (fst c)))) (length psi)); [discriminate E1|]. cbv zeta in E1, E2.
        match type of E1 with bind ?x _ = _ => destruct x as [[Q q]|]; [|discriminate E1] end. cbn [bind] in E1, E2.
        apply Ok_inj' in E1. injection E1 as -> _.
        match type of E2 with bind (normal_form _ _ _ ?z) _ = _ => destruct (normal_form svd flag P z) as [P2|] eqn:E4; [|discriminate E2] end.
        cbn [bind] in E2. apply Ok_inj' in E2. assert (EP1 : P2 = P1) by congruence. subst P2.
        assert (HlP : length P = length ds) by (rewrite <- A2; symmetry; apply length_pdims).
        destruct (norm_bonds P _ P1 D D A1 HD Hf ltac:(lia) E4) as (N1 & N2 & N3). split; [exact N1|]. split; [congruence|exact N3].
      - exists P, (- (if Z.eqb s 0 then 1 else s))%Z, e. auto. }
    destruct E3 as (P1 & s1 & e1 & E3 & B1 & B2 & B3). rewrite E3 in E. cbn [bind] in E.
    destruct (exec_calls svd flag simplify us (map (fun c : nat * (R * bool) => Apply (fst c) (fst (snd c)) Dmax (snd (snd c))) cs) (P1, s1)) as [[[P2 s2] es2]|] eqn:E5; [|discriminate E].
    cbn [bind] in E. apply Ok_inj' in E. injection E as <- <- _.
    destruct (IH (fun c' H => Hc c' (or_intror H)) P1 s1 P2 s2 es2 B1 B2 E5) as (C1 & C2 & C3). split; [exact C1|]. split; [exact C2|].
    intros j Hj. apply C3.
    destruct (in_dec (fun x y : nat * bool => ltac:(decide equality; [apply bool_dec|apply Nat.eq_dec])) (j, true) (blocks (is_even (par (fst c))) 0 (length ds))) as [Hin|Hin].
    + left. etransitivity; [apply B3|]. apply A7; assumption.
    + destruct Hj as [Hj|(c' & [<-|Hc'] & Hin')].
      * left. etransitivity; [apply B3|]. etransitivity; [apply A6; exact Hin|]. exact Hj.
      * contradiction.
      * right. exists c'. auto.
Qed.

End Exec.

Lemma in_range_exists ds : (forall k, (k < length ds)%nat -> (0 < nth k ds 0)%nat) -> exists is, in_range ds is.
Proof.
  induction ds as [|d ds IH]; intros H; [exists []; constructor|].
  destruct IH as (is & His); [intros k Hk; apply (H (S k)); cbn; lia|]. exists (0%nat :: is). constructor; [apply (H 0%nat); cbn; lia|exact His].
Qed.

(** The unitaries made from a Hamiltonian *)
Lemma unitary_layer_ok {RS : RScal} (expm : tensor -> tensor) H k dt u : (forall n M, is_matrix M n n -> is_matrix (expm M) n n) ->
  full_terms H -> (k <= 1)%nat -> unitary_new expm H k dt = Ok u ->
  layer_ok u k (h_dims H) /\ forall x, In x (blocks (is_even k) 0 (h_size H)) -> u_at u (fst x) = expm (tscale dt (gen H x)).
Proof.
  intros He HF Hk E. destruct (unitary_new_ok expm H k dt HF Hk) as (u' & E' & H1 & (H2 & H3) & H4). rewrite E in E'. apply Ok_inj' in E'. subst u'.
  split; [|exact H4]. split; [exact Hk|]. split; [exact H2|]. rewrite length_h_dims. split; [exact H3|]. split; [exact H1|].
  intros x Hx. rewrite (H4 x Hx). apply He. pose proof (blocks_range _ _ _ _ Hx) as Hr.
  destruct (in_range_exists (h_dims H)) as (is & His).
  { intros k' Hk'. rewrite length_h_dims in Hk'. rewrite nth_h_dims by exact Hk'. destruct HF as (_ & Hl & _). apply (Hl k' Hk'). }
  destruct (gen_ok H x is is HF His His) as ((G1 & G2) & _); [lia|]. split; [exact G1|apply wf_tscale; exact G2].
Qed.
