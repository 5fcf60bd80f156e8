(** * C46, C47, C59-C61: the Trotter solvers *)
From Coq Require Import Reals Lra Bool List Arith ZArith QArith Qreals Lia Ring.
From Verif Require Import Scalar ScalarFacts RScal RealInst Tensor TensorFacts Spec MpsModel MpsFacts EnvFacts ExpectedFacts
  HamSpec HamModel HamFacts HamConst SparseSpec SparseModel SparseFacts CanonSpec CanonModel TruncFacts CanonFacts CanonSweep
  Properties_Ham Properties_Canon Properties_Sparse SvdExist StateFacts2 TrotterSpec TrotterModel TrotterFacts TrotterApply TrotterRun TrotterLoop TrotterExec TrotterNorm TrotterExp.
Import ListNotations.
Local Open Scope K_scope.

Section Unitaries.
Context {RS : RScal}.
Add Ring Kring : k_ring.

(** Each bond belongs to exactly one of the two layers, each site to exactly one block of each layer. *)
Theorem C46_bonds_once n j b : In (j, true) (blocks b 0 n) <-> (S j < n)%nat /\ b = Nat.even j.
Proof.
  split.
  - intros H. pose proof (blocks_range _ _ _ _ H) as Hr. cbn in Hr. split; [lia|]. destruct b.
    + apply blocks_true_in in H. destruct H as (q & Hq). symmetry. apply Nat.even_spec. exists q. lia.
    + destruct n as [|n]; [destruct H|]. apply blocks_false_in in H. destruct H as [H|H]; [discriminate|].
      apply blocks_true_in in H. destruct H as (q & Hq). replace j with (S (2 * q)) by lia. rewrite Nat.even_succ, Nat.odd_mul. reflexivity.
  - intros (H & ->). apply bond_in_layer. exact H.
Qed.

(** C46.  For a Hamiltonian whose terms are all given: the two unitaries are made of exponentials of
    dt times the matrices [G] of their blocks, and the matrices of all blocks of both add up to the sum of
    all nearest neighbour interactions and all local terms, each once. *)
Theorem C46_unitaries expm H dt : full_terms H ->
  exists Ue Uo G, unitary_new expm H 0 dt = Ok Ue /\ unitary_new expm H 1 dt = Ok Uo /\
    let ds := h_dims H in
    (forall x, In x (blocks true 0 (h_size H)) -> is_matrix (G x) (block_dim ds x) (block_dim ds x) /\ u_at Ue (fst x) = expm (tscale dt (G x))) /\
    (forall x, In x (blocks false 0 (h_size H)) -> is_matrix (G x) (block_dim ds x) (block_dim ds x) /\ u_at Uo (fst x) = expm (tscale dt (G x))) /\
    forall is js, in_range ds is -> in_range ds js ->
      layer_sum true ds (fun x => mat (G x)) is js + layer_sum false ds (fun x => mat (G x)) is js =
      pair_chain ds (h_interaction H) (h_local H) is js.
Proof.
  intros HF. destruct (unitary_new_ok expm H 0 dt HF ltac:(lia)) as (Ue & E1 & _ & _ & U1).
  destruct (unitary_new_ok expm H 1 dt HF ltac:(lia)) as (Uo & E2 & _ & _ & U2).
  exists Ue, Uo, (gen H). split; [exact E1|]. split; [exact E2|]. cbv zeta.
  assert (HG : forall b x, In x (blocks b 0 (h_size H)) -> is_matrix (gen H x) (block_dim (h_dims H) x) (block_dim (h_dims H) x)).
  { intros b x Hx. pose proof (blocks_range _ _ _ _ Hx) as Hr. destruct (in_range_exists (h_dims H)) as (is & His).
    { intros k' Hk'. rewrite length_h_dims in Hk'. rewrite nth_h_dims by exact Hk'. destruct HF as (_ & Hl & _). apply (Hl k' Hk'). }
    destruct (gen_ok H x is is HF His His) as (G1 & _); [lia|]. exact G1. }
  split; [intros x Hx; split; [apply (HG true); exact Hx|apply U1; exact Hx]|].
  split; [intros x Hx; split; [apply (HG false); exact Hx|apply U2; exact Hx]|].
  intros is js Hi Hj. unfold layer_sum. rewrite length_h_dims. apply both_layers; assumption.
Qed.

Lemma ch_full N dim_of l : Forall (call_ok N dim_of) l -> (forall k, (0 < dim_of k)%nat) -> (0 < N)%nat ->
  (forall k, (k < N)%nat -> hist_local k l <> empty) ->
  exists c, ch_run N false l = Ok c /\ full_terms (ch_view c) /\ h_size (ch_view c) = N /\ h_dims (ch_view c) = map dim_of (seq 0 N) /\
    forall is js, in_range (map dim_of (seq 0 N)) is -> in_range (map dim_of (seq 0 N)) js ->
      pair_chain (map dim_of (seq 0 N)) (h_interaction (ch_view c)) (h_local (ch_view c)) is js =
      chain_op N false (fun k => hist_local k l) (fun k => hist_terms k l) is js.
Proof.
  intros Hl Hp HN Hex. destruct (C39_constant_hamiltonian N false dim_of l Hl Hp) as (c & E & HsN & HpN & Hk).
  assert (Htouch : forall k, (k < N)%nat -> existsb (touches k) l = true).
  { intros k Hk'. apply existsb_exists. destruct (hist_local_touched k l (Hex k Hk')) as (x & Hx & Ht). exists x. auto. }
  assert (Hdim : forall k, (k < N)%nat -> h_dim (ch_view c) k = dim_of k).
  { intros k Hk'. destruct (Hk k Hk') as (_ & _ & Hd & _). rewrite Hd, (Htouch k Hk'). reflexivity. }
  exists c. split; [exact E|]. split; [|split; [exact HsN|split]].
  - split; [lia|]. split.
    + intros k Hk'. rewrite HsN in Hk'. rewrite Hdim by exact Hk'. split; [apply Hp|]. destruct (Hk k Hk') as (Hloc & _). rewrite Hloc.
      destruct (hist_local_ok N dim_of k l Hl) as [A|A]; [exact A|]. destruct (Hex k Hk' A).
    + intros k Hk'. rewrite HsN in Hk'. rewrite !Hdim by lia. destruct (Hk k ltac:(lia)) as (_ & _ & _ & Hi).
      apply Hi; [exact Hk'|apply Htouch; lia|apply Htouch; lia].
  - unfold h_dims. rewrite HsN. apply map_ext_in. intros k Hin. apply in_seq in Hin. apply Hdim. lia.
  - intros is js Hi Hj. unfold pair_chain, chain_op. rewrite map_length, seq_length. cbn [andb].
    match goal with |- ?a + ?b = ?b' + ?a' + 0 => assert (A : a = a'); [|assert (B : b = b'); [|rewrite A, B; ring]] end.
    + apply sum_ext. intros k Hk'. destruct (Hk k ltac:(lia)) as (_ & _ & _ & HI).
      specialize (HI ltac:(lia) (Htouch k ltac:(lia)) (Htouch (S k) ltac:(lia))).
      destruct HI as (_ & HI).
      apply pair_op_bond; [exact Hi|exact Hj|rewrite map_length, seq_length; lia|]. rewrite !nth_map_seq by lia. cbn [Nat.add].
      intros i1 i2 j1 j2 A B C D. apply HI; assumption.
    + apply sum_ext. intros k Hk'. destruct (Hk k ltac:(lia)) as (Hloc & _). rewrite Hloc. reflexivity.
Qed.

(** C46 for a ConstantHamiltonian after any history of calls that sets a local term on every site. *)
Theorem C46_constant_hamiltonian expm dt N dim_of l : Forall (call_ok N dim_of) l -> (forall k, (0 < dim_of k)%nat) -> (0 < N)%nat ->
  (forall k, (k < N)%nat -> hist_local k l <> empty) ->
  exists c Ue Uo G, ch_run N false l = Ok c /\ unitary_new expm (ch_view c) 0 dt = Ok Ue /\ unitary_new expm (ch_view c) 1 dt = Ok Uo /\
    let ds := map dim_of (seq 0 N) in
    (forall x, In x (blocks true 0 N) -> u_at Ue (fst x) = expm (tscale dt (G x))) /\
    (forall x, In x (blocks false 0 N) -> u_at Uo (fst x) = expm (tscale dt (G x))) /\
    forall is js, in_range ds is -> in_range ds js ->
      layer_sum true ds (fun x => mat (G x)) is js + layer_sum false ds (fun x => mat (G x)) is js =
      chain_op N false (fun k => hist_local k l) (fun k => hist_terms k l) is js.
Proof.
  intros Hl Hp HN Hex. destruct (ch_full N dim_of l Hl Hp HN Hex) as (c & E & HF & HsN & Eds & HC).
  destruct (C46_unitaries expm (ch_view c) dt HF) as (Ue & Uo & G & E1 & E2 & H1 & H2 & H3).
  exists c, Ue, Uo, G. split; [exact E|]. split; [exact E1|]. split; [exact E2|]. cbv zeta. rewrite HsN in *. rewrite Eds in *.
  split; [intros x Hx; apply H1; exact Hx|]. split; [intros x Hx; apply H2; exact Hx|].
  intros is js Hi Hj. rewrite H3 by assumption. apply HC; assumption.
Qed.

Lemma pair_chain_ext ds M M' O O' is js : in_range ds is -> in_range ds js ->
  (forall k r c, (S k < length ds)%nat -> (r < nth k ds 0 * nth (S k) ds 0)%nat -> (c < nth k ds 0 * nth (S k) ds 0)%nat -> mat (M k) r c = mat (M' k) r c) ->
  (forall k r c, (k < length ds)%nat -> (r < nth k ds 0)%nat -> (c < nth k ds 0)%nat -> mat (O k) r c = mat (O' k) r c) ->
  pair_chain ds M O is js = pair_chain ds M' O' is js.
Proof.
  intros Hi Hj HM HO. unfold pair_chain. f_equal; apply sum_ext; intros k Hk.
  - apply (pair_op_ext ds k); try assumption; [lia|]. intros i1 i2 j1 j2 A B C D. apply HM; [lia| |]; nia.
  - apply (TrotterFacts.site_op_ext ds k); try assumption. intros i j A B. apply HO; assumption.
Qed.

Lemma mat_empty i j : mat empty i j = 0.
Proof. unfold mat, get. cbn [empty data dims]. destruct (offset _ _); reflexivity. Qed.

(** The terms of TIHamiltonian(N, H12, H1, periodic), whose constructor receives sqrt(H12.rows()) and the
    factors of H12. *)
Lemma ti_full N d H12 H1 periodic v1 v2 : ti_data d H12 H1 -> (0 < N)%nat ->
  exists H, ti_new N H12 H1 periodic d v1 v2 = Ok H /\ full_terms H /\ h_size H = N /\ h_dims H = repeat d N /\
   forall is js, in_range (repeat d N) is -> in_range (repeat d N) js ->
     pair_chain (repeat d N) (h_interaction H) (h_local H) is js = pair_chain (repeat d N) (fun _ => H12) (fun _ => H1) is js.
Proof.
  intros (Hd & A & B & C) HN. unfold ti_new.
  assert (E : is_empty H1 && is_empty H12 = false).
  { destruct A as [A| ->]; [rewrite (matrix_not_empty _ _ A) by nia; apply andb_false_r|].
    destruct B as [B| ->]; [rewrite (matrix_not_empty _ _ B) by nia; reflexivity|]. destruct (C (conj eq_refl eq_refl)). }
  rewrite E. cbv zeta.
  set (H1' := if is_empty H1 then zeros [d; d] else H1).
  assert (M1 : is_matrix H1' d d /\ forall r c, (r < d)%nat -> (c < d)%nat -> mat H1' r c = mat H1 r c).
  { unfold H1'. destruct B as [B| ->].
    - rewrite (matrix_not_empty _ _ B) by exact Hd. split; [exact B|reflexivity].
    - cbn [is_empty empty data]. split; [split; [reflexivity|apply wf_mk]|]. intros r c Hr Hc. rewrite mat_empty. unfold mat. apply get_zeros. apply in_range_2; assumption. }
  clearbody H1'. destruct M1 as (M1 & V1). pose proof M1 as (D1 & _).
  set (H12' := if is_empty H12 then zeros [dim H1' 0 * dim H1' 0; dim H1' 0 * dim H1' 0]%nat else H12).
  assert (M2 : is_matrix H12' (d * d) (d * d) /\ forall r c, (r < d * d)%nat -> (c < d * d)%nat -> mat H12' r c = mat H12 r c).
  { unfold H12'. destruct A as [A| ->].
    - rewrite (matrix_not_empty _ _ A) by nia. split; [exact A|reflexivity].
    - cbn [is_empty empty data]. replace (dim H1' 0) with d by (unfold dim; rewrite D1; reflexivity). split; [split; [reflexivity|apply wf_mk]|]. intros r c Hr Hc. rewrite mat_empty. unfold mat. apply get_zeros. apply in_range_2; assumption. }
  clearbody H12'. destruct M2 as (M2 & V2).
  assert (D1' : dim H1' 1 = d) by (unfold dim; rewrite D1; reflexivity).
  eexists. split; [reflexivity|]. split; [|split; [reflexivity|split]].
  - split; [exact HN|]. cbn. rewrite D1'. split; [intros k Hk; split; [exact Hd|exact M1]|intros k Hk; exact M2].
  - unfold h_dims. cbn. rewrite D1'. clear. induction N as [|N IH] using nat_ind; [reflexivity|]. rewrite seq_S, map_app, IH. cbn. symmetry. apply repeat_cons.
  - intros is js Hi Hj. cbn [h_interaction h_local]. assert (Hn : forall k, (k < length (repeat d N))%nat -> nth k (repeat d N) 0%nat = d)
      by (intros k Hk; rewrite repeat_length in Hk; apply nth_repeat_lt; exact Hk).
    apply pair_chain_ext; [exact Hi|exact Hj| |].
    + intros k r c Hk. rewrite !Hn by lia. apply V2.
    + intros k r c Hk. rewrite !Hn by lia. apply V1.
Qed.

(** C46 for an open TIHamiltonian; the interaction or the local term may be missing. *)
Theorem C46_translation_invariant expm dt N d H12 H1 v1 v2 : ti_data d H12 H1 -> (0 < N)%nat ->
  exists H Ue Uo G, ti_new N H12 H1 false d v1 v2 = Ok H /\ unitary_new expm H 0 dt = Ok Ue /\ unitary_new expm H 1 dt = Ok Uo /\
    let ds := repeat d N in
    (forall x, In x (blocks true 0 N) -> u_at Ue (fst x) = expm (tscale dt (G x))) /\
    (forall x, In x (blocks false 0 N) -> u_at Uo (fst x) = expm (tscale dt (G x))) /\
    forall is js, in_range ds is -> in_range ds js ->
      layer_sum true ds (fun x => mat (G x)) is js + layer_sum false ds (fun x => mat (G x)) is js =
      pair_chain ds (fun _ => H12) (fun _ => H1) is js.
Proof.
  intros Hti HN. destruct (ti_full N d H12 H1 false v1 v2 Hti HN) as (H & E & HF & HsN & Eds & HC).
  destruct (C46_unitaries expm H dt HF) as (Ue & Uo & G & E1 & E2 & H1' & H2 & H3).
  exists H, Ue, Uo, G. split; [exact E|]. split; [exact E1|]. split; [exact E2|]. cbv zeta. rewrite HsN in *. rewrite Eds in *.
  split; [intros x Hx; apply H1'; exact Hx|]. split; [intros x Hx; apply H2; exact Hx|].
  intros is js Hi Hj. rewrite H3 by assumption. apply HC; assumption.
Qed.

(** C46. DEFECT: the unitaries of a periodic Hamiltonian are those of the open one: the interaction of the
    last with the first site is never applied, and no error is reported. *)
Theorem C46_periodic_refuted expm dt N H12 H1 d v1 v2 k H H' :
  ti_new N H12 H1 true d v1 v2 = Ok H -> ti_new N H12 H1 false d v1 v2 = Ok H' ->
  h_periodic H = true /\ unitary_new expm H k dt = unitary_new expm H' k dt.
Proof.
  intros E E'. unfold ti_new in E, E'. destruct (is_empty H1 && is_empty H12); [discriminate|]. cbv zeta in E, E'.
  apply Ok_inj' in E. apply Ok_inj' in E'. subst H H'. split; [reflexivity|].
  unfold unitary_new. destruct (Nat.ltb 1 k); [reflexivity|]. cbn [h_size].
  destruct (u_range N k) as [k0 kN]. generalize (repeat (@empty rs_scalar) N). intros U.
  match goal with |- bind (u_fill _ ?a _ _ _ _ _ _) _ = bind (u_fill _ ?b _ _ _ _ _ _) _ =>
    assert (EF : forall fuel i U, u_fill expm a dt k0 kN fuel i U = u_fill expm b dt k0 kN fuel i U) end.
  { induction fuel as [|fuel IH]; intros i U'; [reflexivity|]. cbn [u_fill h_size]. destruct (Nat.ltb i N); [|reflexivity].
    destruct (Nat.ltb i k0 || Nat.leb kN i).
    - unfold u_single. cbn [h_local]. destruct (u_exp _ _ _); [|reflexivity]. cbn [bind]. apply IH.
    - unfold u_pair. cbn [h_local h_interaction h_dim]. match goal with |- bind ?x _ = bind _ _ => destruct x as [Hi|]; [|reflexivity] end. cbn [bind]. destruct (u_exp _ _ _); [|reflexivity]. cbn [bind]. apply IH. }
  rewrite EF. reflexivity.
Qed.
End Unitaries.

(** The two operators really are different: three sites, interaction |11><11|, state 101. *)
Definition diag11 : @tensor (@rs_scalar RR) := @mk (@rs_scalar RR) [4; 4]%nat (fun is => match is with [3; 3]%nat => 1%R | _ => 0%R end).
Definition zero2 : @tensor (@rs_scalar RR) := @zeros (@rs_scalar RR) [2; 2]%nat.
Theorem C46_periodic_differs_refuted :
  @ti_data (@rs_scalar RR) 2 diag11 zero2 /\
  @pair_chain (@rs_scalar RR) [2; 2; 2]%nat (fun _ => diag11) (fun _ => zero2) [1; 0; 1]%nat [1; 0; 1]%nat = 0%R /\
  @wrap_op (@rs_scalar RR) 2 (@mat (@rs_scalar RR) diag11) [1; 0; 1]%nat [1; 0; 1]%nat = 1%R.
Proof.
  split; [|split].
  - split; [lia|]. split; [left; split; [reflexivity|apply wf_mk]|]. split; [left; split; [reflexivity|apply wf_mk]|]. intros (H & _). apply (f_equal (fun t => length (@data (@rs_scalar RR) t))) in H. cbn in H. discriminate H.
  - cbn. ring.
  - cbn. ring.
Qed.

(** ** The solvers *)
Section Solvers.
Notation T := (@tensor (@rs_scalar CC)).
Notation ham := (@hamiltonian (@rs_scalar CC)).
Variable expm : T -> T.

Definition call_no (c : layer_call) : nat := match c with Apply n _ _ _ | ApplySimplify n _ _ _ => n end.
Definition par (l : list (nat * R)) (n : nat) : nat := fst (nth n l (0%nat, 0%R)).
Definition coef (l : list (nat * R)) (dt : Cx) (n : nat) : Cx := rotate (cscale (snd (nth n l (0%nat, 0%R))) dt).

Lemma solver_new_ok l H dt : @full_terms CC H -> Forall (fun x => (fst x <= 1)%nat) l ->
  exists us, solver_new expm l H dt = Ok us /\ length us = length l /\
    forall n, (n < length l)%nat -> @unitary_new CC expm H (par l n) (coef l dt n) = Ok (@u_no CC us n).
Proof.
  intros HF. unfold solver_new.
  assert (G : forall l acc, Forall (fun x : nat * R => (fst x <= 1)%nat) l -> exists us,
    fold_left (fun r x => bind r (fun us => bind (@unitary_new CC expm H (fst x) (rotate (cscale (snd x) dt))) (fun u => Ok (us ++ [u])))) l (Ok acc) = Ok (acc ++ us) /\
    length us = length l /\ forall n, (n < length l)%nat -> @unitary_new CC expm H (par l n) (coef l dt n) = Ok (@u_no CC us n)).
  { clear l. induction l as [|x l IH]; intros acc Hl.
    - exists []. cbn. rewrite app_nil_r. split; [reflexivity|]. split; [reflexivity|]. intros n Hn. lia.
    - pose proof (Forall_inv Hl) as Hx. destruct (@unitary_new_ok CC expm H (fst x) (rotate (cscale (snd x) dt)) HF Hx) as (u & E & _).
      destruct (IH (acc ++ [u]) (Forall_inv_tail Hl)) as (us & E2 & L & Hn).
      exists (u :: us). cbn [fold_left bind]. rewrite E. cbn [bind]. rewrite E2. rewrite <- app_assoc. split; [reflexivity|]. split; [cbn; congruence|].
      intros [|n] Hn'; [exact E|]. apply Hn. cbn in Hn'. lia. }
  intros Hl. destruct (G l [] Hl) as (us & H1 & H2 & H3). exists us. auto.
Qed.

(** The sum of the coefficients of the layers of parity p in a sequence of calls *)
Definition advance (l : list (nat * R)) (dt : Cx) (p : nat) (cs : list layer_call) : Cx :=
  fold_right (fun c s => if Nat.eqb (par l (call_no c)) p then Cadd (coef l dt (call_no c)) s else s) (mkC 0 0) cs.

(** C47: what a step with solver (l, calls) does: every call applies the exponentials of [coef n] times the
    matrices of the blocks, whose sum is H (C46), and the coefficients of either parity add up to [target]. *)
Definition advances (l : list (nat * R)) (calls : strategy -> nat -> bool -> list (layer_call * bool)) (dt target : Cx) : Prop :=
  forall H, @full_terms CC H -> exists us G, solver_new expm l H dt = Ok us /\
    (forall n x, (n < length l)%nat -> In x (blocks (Nat.eqb (par l n) 0) 0 (h_size H)) ->
       @u_at CC (nth n us (mkU 0 0 [])) (fst x) = expm (@tscale (@rs_scalar CC) (coef l dt n) (G x))) /\
    (forall is js, in_range (h_dims H) is -> in_range (h_dims H) js ->
      @kadd (@rs_scalar CC) (@layer_sum (@rs_scalar CC) true (h_dims H) (fun x => @mat (@rs_scalar CC) (G x)) is js)
         (@layer_sum (@rs_scalar CC) false (h_dims H) (fun x => @mat (@rs_scalar CC) (G x)) is js) =
      @pair_chain (@rs_scalar CC) (h_dims H) (h_interaction H) (h_local H) is js) /\
    forall s Dmax nrm, (forall c, In c (calls s Dmax nrm) -> (call_no (fst c) < length l)%nat) /\
      advance l dt 0 (map fst (calls s Dmax nrm)) = target /\ advance l dt 1 (map fst (calls s Dmax nrm)) = target.

Lemma advances_ok l calls dt target : Forall (fun x => (fst x <= 1)%nat) l ->
  (forall s Dmax nrm, (forall c, In c (calls s Dmax nrm) -> (call_no (fst c) < length l)%nat) /\
      advance l dt 0 (map fst (calls s Dmax nrm)) = target /\ advance l dt 1 (map fst (calls s Dmax nrm)) = target) ->
  advances l calls dt target.
Proof.
  intros Hl Hc H HF. destruct (solver_new_ok l H dt HF Hl) as (us & E & L & Hn). exists us, (@gen CC H). split; [exact E|]. split; [|split; [|exact Hc]].
  - intros n x Hn' Hx. destruct (@unitary_new_ok CC expm H (par l n) (coef l dt n) HF) as (u & Eu & _ & _ & Hu).
    { unfold par. rewrite Forall_forall in Hl. apply (Hl (nth n l (0%nat, 0%R))). apply nth_In. exact Hn'. }
    rewrite (Hn n Hn') in Eu. apply Ok_inj' in Eu. subst u. apply Hu. exact Hx.
  - intros is js Hi Hj. unfold layer_sum. rewrite (@length_h_dims CC). apply (@both_layers CC H is js HF Hi Hj).
Qed.

(** -i dt *)
Definition minus_i (dt : Cx) : Cx := mkC (Cim dt) (- Cre dt).

Ltac calls_tac := intros s Dmax nrm; destruct s; (split; [intros c Hc; cbn in Hc; repeat (destruct Hc as [<-|Hc]; [cbn; lia|]); destruct Hc|]); split;
  cbn [map trotter2_calls trotter3_calls forest_ruth_calls counted ignored app fst advance fold_right par call_no nth
       trotter2_unitaries trotter3_unitaries forest_ruth_unitaries Nat.eqb coef snd]; unfold coef; cbn [nth snd]; apply C_ext; cbn.

Theorem C47_trotter2 dt : (Cim dt <= 0)%R -> advances trotter2_unitaries trotter2_calls dt (minus_i dt).
Proof.
  intros Hi. apply advances_ok; [repeat constructor|].
  calls_tac; rewrite ?Rabs_left1 by lra; lra.
Qed.
Theorem C47_trotter3 dt : (Cim dt <= 0)%R -> advances trotter3_unitaries trotter3_calls dt (minus_i dt).
Proof.
  intros Hi. apply advances_ok; [repeat constructor|].
  calls_tac; rewrite ?Rabs_left1 by lra; lra.
Qed.
(** Forest-Ruth in real time *)
Theorem C47_forest_ruth_partial dt : Cim dt = 0%R -> advances forest_ruth_unitaries forest_ruth_calls dt (minus_i dt).
Proof.
  intros Hi. apply advances_ok; [repeat constructor|].
  calls_tac; rewrite ?Hi, ?Rmult_0_r, ?Rabs_R0; lra.
Qed.

(** C47. DEFECT: with imaginary time steps the negative coefficients of Forest-Ruth lose their sign, so that
    one step advances the even terms by 1.70... dt and the odd ones by 4.40... dt. *)
Theorem C47_forest_ruth_imaginary_refuted s Dmax nrm b : (0 <= b)%R ->
  advance forest_ruth_unitaries (mkC 0 (- b)) 0 (map fst (forest_ruth_calls s Dmax nrm)) = mkC (- (170241438391932 / 10 ^ 14 * b)) 0 /\
  advance forest_ruth_unitaries (mkC 0 (- b)) 1 (map fst (forest_ruth_calls s Dmax nrm)) = mkC (- (440482876783864 / 10 ^ 14 * b)) 0.
Proof.
  intros Hb. revert s Dmax nrm.
  assert (A : forall c, (0 <= c)%R -> Rabs (c * - b) = (c * b)%R) by (intros c Hc; rewrite Rabs_left1 by nra; lra).
  assert (B : forall c, (c <= 0)%R -> Rabs (c * - b) = (- c * b)%R) by (intros c Hc; rewrite Rabs_right by nra; lra).
  intros s Dmax nrm; destruct s; split;
  cbn [map forest_ruth_calls counted app fst advance fold_right par call_no nth forest_ruth_unitaries Nat.eqb coef snd]; unfold coef; cbn [nth snd]; apply C_ext; cbn;
  rewrite ?(A (67560359597983 / _)%R), ?(A (135120719195966 / _)%R), ?(B (- 17560359597983 / _)%R), ?(B (- 170241438391932 / _)%R) by lra; lra.
Qed.

(** C47. DEFECT: the sign of the imaginary part of dt is ignored: a step with Im dt > 0 does not evolve by
    -i dt, but by the same amount in the opposite direction of imaginary time. *)
Theorem C47_sign_refuted s Dmax nrm p a b : (0 < b)%R -> (p <= 1)%nat ->
  advance trotter2_unitaries (mkC a b) p (map fst (trotter2_calls s Dmax nrm)) = minus_i (mkC a (- b)) /\
  minus_i (mkC a (- b)) <> minus_i (mkC a b).
Proof.
  intros Hb Hp. split; [|unfold minus_i; cbn; intros H; injection H as H; lra].
  destruct p as [|[|p]]; [| |lia]; destruct s;
  cbn [map trotter2_calls counted ignored app fst advance fold_right par call_no nth trotter2_unitaries Nat.eqb coef snd]; unfold coef; cbn [nth snd]; apply C_ext; cbn;
  rewrite ?Rabs_right by lra; lra.
Qed.

(** Without a maximal dimension every strategy but DO_NOT_TRUNCATE stops the program. *)
Theorem C47_needs_dimension calls us s svd flag simplify nrm st : s <> DoNotTruncate -> @one_step CC svd flag simplify calls us s 0 nrm st = Abort.
Proof. intros Hs. destruct s; [reflexivity|reflexivity|reflexivity|congruence]. Qed.
End Solvers.

(** ** The evolved state *)
Section Evolution.
Notation T := (@tensor (@rs_scalar CC)).
Notation ham := (@hamiltonian (@rs_scalar CC)).
Notation state := (list T).
Variable expm : T -> T.
(** expm() of a square matrix is its exponential: the sum of the series M^k/k! *)
Hypothesis Hexpm : expm_contract expm.
Variable svd : T -> T * list R * T.
Hypothesis Hsvd : @svd_contract CC svd.
Variable flag : R.
Variable simplify : state -> nat -> bool -> result (state * R).

(** The operator of layer number n of a solver (l, dt) *)
Definition layer (us : list (@unitary CC)) (l : list (nat * R)) (ds : list nat) (n : nat) : list nat -> list nat -> Cx :=
  @layer_op (@rs_scalar CC) (Nat.eqb (par l n) 0) 0 ds (fun q => @mat (@rs_scalar CC) (@u_at CC (nth n us (mkU 0 0 [])) q)).
(** The layers [ns] acting one after the other *)
Definition evolved (us : list (@unitary CC)) (l : list (nat * R)) (ds : list nat) (ns : list nat) (f : list nat -> Cx) : list nat -> Cx :=
  fold_left (fun f n => @act (@rs_scalar CC) ds (layer us l ds n) f) ns f.

Lemma layers_ok l H dt us : @full_terms CC H -> Forall (fun x => (fst x <= 1)%nat) l -> solver_new expm l H dt = Ok us ->
  forall n, (n < length l)%nat -> @layer_ok CC (@u_no CC us n) (par l n) (h_dims H).
Proof.
  intros HF Hl E n Hn. destruct (solver_new_ok expm l H dt HF Hl) as (us' & E' & _ & Hu). rewrite E in E'. apply Ok_inj' in E'. subst us'.
  apply (@unitary_layer_ok CC expm H (par l n) (coef l dt n) _ (fun n M h => proj1 (Hexpm n M h)) HF); [|apply Hu; exact Hn].
  unfold par. rewrite Forall_forall in Hl. apply (Hl (nth n l (0%nat, 0%R))). apply nth_In. exact Hn.
Qed.

Lemma dims_pos H : @full_terms CC H -> (0 < length (@h_dims (@rs_scalar CC) H))%nat.
Proof. intros (HN & _). rewrite (@length_h_dims CC). exact HN. Qed.

Lemma run_exact l H dt us cs D psi s : @full_terms CC H -> Forall (fun x => (fst x <= 1)%nat) l -> solver_new expm l H dt = Ok us ->
  (forall c : nat * R, In c cs -> (fst c < length l)%nat /\ eff_tol flag (snd c) <> 0%R) -> (0 < D)%nat -> @linked (@rs_scalar CC) D psi D -> pdims psi = h_dims H ->
  exists psi' s' es, @exec_calls CC svd flag simplify us (map (fun c : nat * R => Apply (fst c) (snd c) 0 false) cs) (psi, s) = Ok (psi', s', es) /\
    @linked (@rs_scalar CC) D psi' D /\ pdims psi' = h_dims H /\ length es = length cs /\ Forall (fun e => 0 <= e)%R es /\
    ((forall c, In c cs -> (1 <= eff_tol flag (snd c))%R) -> Forall (fun e => e = 0%R) es) /\
    (Forall (fun e => e = 0%R) es -> forall is, in_range (h_dims H) is -> @amp (@rs_scalar CC) psi' is = evolved us l (h_dims H) (map fst cs) (@amp (@rs_scalar CC) psi) is).
Proof.
  intros HF Hl E Hc HD HL Hp.
  destruct (@exec_exact CC svd flag Hsvd simplify us (par l) (h_dims H) (dims_pos H HF) D HD cs) with (psi := psi) (s := s) as (psi' & s' & es & E1 & H1 & H2 & H3 & H4 & H5 & H6); try assumption.
  - intros c Hin. destruct (Hc c Hin) as (A & B). split; [|exact B]. apply (layers_ok l H dt us HF Hl E (fst c) A).
  - exists psi', s', es. split; [exact E1|]. split; [exact H1|]. split; [exact H2|]. split; [exact H3|]. split; [exact H4|]. split; [exact H5|].
    intros He is His. rewrite (H6 He is His). unfold evolved. clear. revert is.
    assert (G : forall cs f is, fold_left (fun f M => @act (@rs_scalar CC) (h_dims H) M f) (map (fun c : nat * R => @u_op CC (@u_no CC us (fst c)) (par l (fst c)) (h_dims H)) cs) f is =
      fold_left (fun f n => @act (@rs_scalar CC) (h_dims H) (layer us l (h_dims H) n) f) (map fst cs) f is); [|intros is; apply G].
    { induction cs0 as [|c cs0 IH]; intros f is; [reflexivity|]. cbn [map fold_left]. apply IH. }
Qed.

Lemma total_counted cs (es : list R) : length es = length cs -> Forall (fun e => 0 <= e)%R es ->
  (0 <= total_error (counted cs) es)%R /\ (total_error (counted cs) es = 0%R <-> Forall (fun e => e = 0%R) es).
Proof.
  revert es. induction cs as [|c cs IH]; intros [|e es] HL HF; try discriminate; cbn [counted map].
  - unfold total_error. cbn. split; [lra|]. split; [constructor|reflexivity].
  - destruct (IH es ltac:(cbn in HL; lia) (Forall_inv_tail HF)) as (A & B). pose proof (Forall_inv HF) as He. cbn in He.
    change (total_error ((c, true) :: map (fun c => (c, true)) cs) (e :: es)) with (e + total_error (counted cs) es)%R.
    split; [lra|]. split.
    + intros H. constructor; [lra|]. apply B. lra.
    + intros H. pose proof (Forall_inv H) as H0. cbn in H0. apply Forall_inv_tail in H. apply B in H. lra.
Qed.
Lemma total_ignored cs (es : list R) : total_error (ignored cs) es = 0%R.
Proof. revert es. induction cs as [|c cs IH]; intros [|e es]; try reflexivity. unfold total_error in *. cbn. apply IH. Qed.

Lemma eps_ok : eff_tol flag MPS_TRUNCATE_EPSILON <> 0%R.
Proof.
  unfold eff_tol, MPS_TRUNCATE_EPSILON, DBL_EPSILON. pose proof (pow_lt 2 52 ltac:(lra)) as H. apply Rinv_0_lt_compat in H.
  unfold Rltb. destruct (Rlt_dec _ _); lra.
Qed.
Lemma def_tol : eff_tol flag MPS_DEFAULT_TOLERANCE = flag.
Proof. unfold eff_tol, MPS_DEFAULT_TOLERANCE, Rltb. destruct (Rlt_dec _ _); [reflexivity|lra]. Qed.

Lemma evolved_inner us l ds ns : (forall n, In n ns -> forall is ks, in_range ds is -> in_range ds ks ->
    @sumcfg (@rs_scalar CC) ds (fun js => Cmul (Cconj (layer us l ds n js is)) (layer us l ds n js ks)) = @id_op (@rs_scalar CC) is ks) ->
  forall f g, @inner (@rs_scalar CC) ds (evolved us l ds ns f) (evolved us l ds ns g) = @inner (@rs_scalar CC) ds f g.
Proof.
  unfold evolved. induction ns as [|n ns IH]; intros Hn f g; [reflexivity|]. cbn [fold_left]. rewrite IH.
  - apply (@act_inner (@rs_scalar CC)). apply Hn. left. reflexivity.
  - intros n' Hn'. apply Hn. right. exact Hn'.
Qed.

(** expm() of an anti-Hermitian matrix is unitary *)
Lemma expm_unitary : forall n (M : T), @is_matrix (@rs_scalar CC) M n n ->
  (forall i j, (i < n)%nat -> (j < n)%nat -> Cconj (@mat (@rs_scalar CC) M j i) = Copp (@mat (@rs_scalar CC) M i j)) ->
  @unitary_mat (@rs_scalar CC) n (@mat (@rs_scalar CC) (expm M)).
Proof. intros n M HM HA r c Hr Hc. apply (exp_unitary n (@mat (@rs_scalar CC) M)); [exact HA|apply Hexpm; exact HM|exact Hr|exact Hc]. Qed.
(** All terms of a Hamiltonian are Hermitian matrices *)
Definition hermitian_terms (H : ham) : Prop :=
  (forall k i j, (k < h_size H)%nat -> (i < h_dim H k)%nat -> (j < h_dim H k)%nat -> Cconj (@mat (@rs_scalar CC) (h_local H k) j i) = @mat (@rs_scalar CC) (h_local H k) i j) /\
  (forall k i j, (S k < h_size H)%nat -> (i < h_dim H k * h_dim H (S k))%nat -> (j < h_dim H k * h_dim H (S k))%nat ->
     Cconj (@mat (@rs_scalar CC) (h_interaction H k) j i) = @mat (@rs_scalar CC) (h_interaction H k) i j).

Add Ring Cring : (@k_ring (@rs_scalar CC)).
Lemma gen_hermitian (H : ham) (x : nat * bool) : @full_terms CC H -> hermitian_terms H -> (fst x + (if snd x then 2 else 1) <= h_size H)%nat ->
  forall i j, (i < block_dim (h_dims H) x)%nat -> (j < block_dim (h_dims H) x)%nat ->
    @kconj (@rs_scalar CC) (@mat (@rs_scalar CC) (@gen CC H x) j i) = @mat (@rs_scalar CC) (@gen CC H x) i j.
Proof.
  intros HF (Hl & Hi) Hx i j. destruct x as (k, b). unfold block_dim, gen. cbn [fst snd] in *. destruct b.
  - rewrite !(@nth_h_dims CC) by lia. intros Bi Bj.
    destruct (@u_pair_ok CC H k HF ltac:(lia)) as (G & E & _ & HG). rewrite E. cbn zeta in HG.
    set (d := h_dim H k) in *. set (d' := h_dim H (S k)) in *.
    assert (Hd : (0 < d)%nat) by nia.
    rewrite (Nat.div_mod i d), (Nat.div_mod j d) by lia. rewrite !(Nat.add_comm (d * _)).
    pose proof (Nat.mod_upper_bound i d ltac:(lia)). pose proof (Nat.mod_upper_bound j d ltac:(lia)).
    assert (i / d < d')%nat by (apply Nat.div_lt_upper_bound; lia). assert (j / d < d')%nat by (apply Nat.div_lt_upper_bound; lia).
    set (i1 := (i mod d)%nat) in *. set (j1 := (j mod d)%nat) in *. set (i2 := (i / d)%nat) in *. set (j2 := (j / d)%nat) in *.
    rewrite !HG by assumption. rewrite !kconj_add, !kconj_mul.
    assert (Hh : @kconj (@rs_scalar CC) (@half CC) = @half CC) by (unfold half; apply rinj_conj). rewrite !Hh.
    assert (Hdl : forall a b, @kconj (@rs_scalar CC) (@delta (@rs_scalar CC) a b) = @delta (@rs_scalar CC) b a)
      by (intros a b; unfold delta; rewrite (Nat.eqb_sym b a); destruct (Nat.eqb a b); [apply kconj_1|apply kconj_0]).
    rewrite !Hdl.
    pose proof (Hi k (i1 + d * i2)%nat (j1 + d * j2)%nat ltac:(lia)) as HI. fold d d' in HI. cbn in HI |- *. rewrite HI by nia. clear HI.
    pose proof (Hl k i1 j1 ltac:(lia)) as HI. fold d in HI. cbn in HI. rewrite HI by assumption. clear HI.
    pose proof (Hl (S k) i2 j2 ltac:(lia)) as HI. fold d' in HI. cbn in HI. rewrite HI by assumption. reflexivity.
  - rewrite !(@nth_h_dims CC) by lia. intros Bi Bj. destruct (@u_single_ok CC H k HF ltac:(lia)) as (_ & HS). rewrite !HS by assumption.
    rewrite kconj_mul. unfold half. rewrite rinj_conj. pose proof (Hl k i j ltac:(lia) Bi Bj) as HI. cbn in HI |- *. rewrite HI. reflexivity.
Qed.

(** The layers of a solver for a Hermitian Hamiltonian and a real time step are unitary. *)
Lemma layers_unitary l H dt us : @full_terms CC H -> hermitian_terms H -> Cim dt = 0%R -> Forall (fun x => (fst x <= 1)%nat) l -> solver_new expm l H dt = Ok us ->
  forall n, (n < length l)%nat -> forall is ks, in_range (h_dims H) is -> in_range (h_dims H) ks ->
    @sumcfg (@rs_scalar CC) (h_dims H) (fun js => Cmul (Cconj (layer us l (h_dims H) n js is)) (layer us l (h_dims H) n js ks)) = @id_op (@rs_scalar CC) is ks.
Proof.
  intros HF HH Hdt Hl E n Hn is ks Hi Hk. unfold layer. apply (@layer_unitary (@rs_scalar CC)); [exact Hi|exact Hk|].
  intros x Hx. rewrite (@length_h_dims CC) in Hx. pose proof (blocks_range _ _ _ _ Hx) as Hr.
  destruct (solver_new_ok expm l H dt HF Hl) as (us' & E' & _ & Hu). rewrite E in E'. apply Ok_inj' in E'. subst us'.
  assert (Hp1 : (par l n <= 1)%nat) by (unfold par; rewrite Forall_forall in Hl; apply (Hl (nth n l (0%nat, 0%R))); apply nth_In; exact Hn).
  destruct (@unitary_layer_ok CC expm H (par l n) (coef l dt n) _ (fun n M h => proj1 (Hexpm n M h)) HF Hp1 (Hu n Hn)) as (_ & Hat).
  unfold u_no in Hat. rewrite (Hat x Hx). unfold rel. replace (fst x - 0)%nat with (fst x) by lia. replace ((fst x, snd x)) with x by (destruct x; reflexivity).
  destruct (@gen_ok CC H x is is HF Hi Hi) as ((G1 & G2) & _); [lia|].
  apply expm_unitary.
  - split; [exact G1|apply wf_tscale; exact G2].
  - intros i j Bi Bj. unfold mat. rewrite !get_tscale; try (exact G2); try (rewrite G1; apply in_range_2; assumption).
    pose proof (gen_hermitian H x HF HH ltac:(lia) i j Bi Bj) as Hh. unfold mat in Hh. change Cconj with (@kconj (@rs_scalar CC)) at 1. rewrite kconj_mul, Hh.
    unfold coef, rotate, cscale. cbn [Cre Cim]. rewrite Hdt, Rmult_0_r, Rabs_R0.
    generalize (@get (@rs_scalar CC) (@gen CC H x) [i; j]). intros z. apply C_ext; cbn; ring.
Qed.

Section Step.
Variable H : ham.
Variable dt : Cx.
Hypothesis HF : @full_terms CC H.
Variable D : nat.
Hypothesis HD : (0 < D)%nat.
Variable psi : state.
Hypothesis HL : @linked (@rs_scalar CC) D psi D.
Hypothesis Hp : pdims psi = h_dims H.

(** C59.  Without truncation a step of the Forest-Ruth solver is the product of its seven layers whenever
    the error it returns is zero, and it is zero if MPS_TRUNCATION_TOLERANCE is at least 1, which turns off
    the truncation of small singular values. *)
Theorem C59_forest_ruth us Dmax s : flag <> 0%R -> solver_new expm forest_ruth_unitaries H dt = Ok us ->
  exists psi' s' e, @one_step CC svd flag simplify forest_ruth_calls us DoNotTruncate Dmax false (psi, s) = Ok (psi', s', e) /\
    @linked (@rs_scalar CC) D psi' D /\ pdims psi' = h_dims H /\ (0 <= e)%R /\ ((1 <= flag)%R -> e = 0%R) /\
    (e = 0%R -> forall is, in_range (h_dims H) is ->
       @amp (@rs_scalar CC) psi' is = evolved us forest_ruth_unitaries (h_dims H) [0; 1; 2; 3; 2; 1; 0]%nat (@amp (@rs_scalar CC) psi) is).
Proof.
  intros Hf E. set (t := MPS_DEFAULT_TOLERANCE).
  destruct (run_exact forest_ruth_unitaries H dt us [(0, t); (1, t); (2, t); (3, t); (2, t); (1, t); (0, t)]%nat D psi s HF) as (psi' & s' & es & E1 & H1 & H2 & H3 & H4 & H5 & H6); try assumption.
  - repeat constructor.
  - intros c Hc. assert (fst c <= 3 /\ snd c = t)%nat as (A & ->) by (cbn in Hc; repeat (destruct Hc as [<-|Hc]; [cbn; split; [lia|reflexivity]|]); destruct Hc).
    split; [cbn; lia|]. unfold t. rewrite def_tol. exact Hf.
  - pose proof (total_counted (map fst (forest_ruth_calls DoNotTruncate Dmax false)) es) as TC. 
    destruct TC as (T1 & T2); [rewrite H3; reflexivity|exact H4|].
    exists psi', s', (total_error (forest_ruth_calls DoNotTruncate Dmax false) es).
    split. { unfold one_step. rewrite andb_false_r. cbn [map fst snd] in E1. match type of E1 with ?a = _ => match goal with |- bind ?x _ = _ => change x with a end end. rewrite E1. reflexivity. }
    split; [exact H1|]. split; [exact H2|]. split; [exact T1|]. split.
    + intros Hf1. apply T2. apply H5. intros c Hc. assert (snd c = t) as -> by (cbn in Hc; repeat (destruct Hc as [<-|Hc]; [reflexivity|]); destruct Hc). unfold t. rewrite def_tol. exact Hf1.
    + intros He is His. apply T2 in He. apply (H6 He is His).
Qed.

(** C59.  Trotter2Solver and Trotter3Solver without truncation: the product of the layers, if no layer drops
    anything.  MISSING: the value they return is 0 also when something was dropped. *)
Theorem C59_trotter2_partial us Dmax nrm s : solver_new expm trotter2_unitaries H dt = Ok us ->
  exists psi' s' es, @one_step CC svd flag simplify trotter2_calls us DoNotTruncate Dmax nrm (psi, s) = Ok (psi', s', 0%R) /\
    @exec_calls CC svd flag simplify us (map fst (trotter2_calls DoNotTruncate Dmax nrm)) (psi, s) = Ok (psi', s', es) /\
    @linked (@rs_scalar CC) D psi' D /\ pdims psi' = h_dims H /\ Forall (fun e => 0 <= e)%R es /\
    (Forall (fun e => e = 0%R) es -> forall is, in_range (h_dims H) is ->
       @amp (@rs_scalar CC) psi' is = evolved us trotter2_unitaries (h_dims H) [0; 1]%nat (@amp (@rs_scalar CC) psi) is).
Proof.
  intros E. set (t := MPS_TRUNCATE_EPSILON).
  destruct (run_exact trotter2_unitaries H dt us [(0, t); (1, t)]%nat D psi s HF) as (psi' & s' & es & E1 & H1 & H2 & H3 & H4 & H5 & H6); try assumption.
  - repeat constructor.
  - intros c Hc. assert (fst c <= 1 /\ snd c = t)%nat as (A & ->) by (cbn in Hc; repeat (destruct Hc as [<-|Hc]; [cbn; split; [lia|reflexivity]|]); destruct Hc).
    split; [cbn; lia|]. apply eps_ok.
  - exists psi', s', es. cbn [map fst snd] in E1. split.
    { unfold one_step. rewrite andb_false_r. match type of E1 with ?a = _ => match goal with |- bind ?x _ = _ => change x with a end end. rewrite E1. cbn [bind]. cbn [trotter2_calls trotter3_calls]. rewrite total_ignored. reflexivity. }
    split; [exact E1|]. split; [exact H1|]. split; [exact H2|]. split; [exact H4|]. exact H6.
Qed.
Theorem C59_trotter3_partial us Dmax s : solver_new expm trotter3_unitaries H dt = Ok us ->
  exists psi' s' es, @one_step CC svd flag simplify trotter3_calls us DoNotTruncate Dmax false (psi, s) = Ok (psi', s', 0%R) /\
    @exec_calls CC svd flag simplify us (map fst (trotter3_calls DoNotTruncate Dmax false)) (psi, s) = Ok (psi', s', es) /\
    @linked (@rs_scalar CC) D psi' D /\ pdims psi' = h_dims H /\ Forall (fun e => 0 <= e)%R es /\
    (Forall (fun e => e = 0%R) es -> forall is, in_range (h_dims H) is ->
       @amp (@rs_scalar CC) psi' is = evolved us trotter3_unitaries (h_dims H) [1; 0; 1]%nat (@amp (@rs_scalar CC) psi) is).
Proof.
  intros E. set (t := MPS_TRUNCATE_EPSILON).
  destruct (run_exact trotter3_unitaries H dt us [(1, t); (0, t); (1, t)]%nat D psi s HF) as (psi' & s' & es & E1 & H1 & H2 & H3 & H4 & H5 & H6); try assumption.
  - repeat constructor.
  - intros c Hc. assert (fst c <= 1 /\ snd c = t)%nat as (A & ->) by (cbn in Hc; repeat (destruct Hc as [<-|Hc]; [cbn; split; [lia|reflexivity]|]); destruct Hc).
    split; [cbn; lia|]. apply eps_ok.
  - exists psi', s', es. cbn [map fst snd] in E1. split.
    { unfold one_step. rewrite andb_false_r. match type of E1 with ?a = _ => match goal with |- bind ?x _ = _ => change x with a end end. rewrite E1. cbn [bind]. cbn [trotter2_calls trotter3_calls]. rewrite total_ignored. reflexivity. }
    split; [exact E1|]. split; [exact H1|]. split; [exact H2|]. split; [exact H4|]. exact H6.
Qed.

(** C61.  A step without truncation with a real time step and a Hermitian Hamiltonian preserves the scalar
    product with any other state evolved in the same way; in particular the norm, if nothing was dropped. *)
Theorem C61_scalar_product (sol : nat) us f g :
  let l := nth sol [trotter2_unitaries; trotter3_unitaries; forest_ruth_unitaries] [] in
  let ns := nth sol [[0; 1]; [1; 0; 1]; [0; 1; 2; 3; 2; 1; 0]]%nat [] in
  hermitian_terms H -> Cim dt = 0%R -> solver_new expm l H dt = Ok us ->
  @inner (@rs_scalar CC) (h_dims H) (evolved us l (h_dims H) ns f) (evolved us l (h_dims H) ns g) = @inner (@rs_scalar CC) (h_dims H) f g.
Proof.
  intros l ns HH Hdt E. apply evolved_inner. intros n Hn.
  apply (layers_unitary l H dt us HF HH Hdt); [|exact E|].
  - subst l. destruct sol as [|[|[|[|sol]]]]; repeat constructor.
  - subst l ns. destruct sol as [|[|[|[|sol]]]]; cbn in Hn |- *; repeat (destruct Hn as [<-|Hn]; [lia|]); destruct Hn.
Qed.
Theorem C61_norm us Dmax s psi' s' : flag <> 0%R -> hermitian_terms H -> Cim dt = 0%R ->
  solver_new expm forest_ruth_unitaries H dt = Ok us ->
  @one_step CC svd flag simplify forest_ruth_calls us DoNotTruncate Dmax false (psi, s) = Ok (psi', s', 0%R) ->
  @inner (@rs_scalar CC) (h_dims H) (@amp (@rs_scalar CC) psi') (@amp (@rs_scalar CC) psi') =
  @inner (@rs_scalar CC) (h_dims H) (@amp (@rs_scalar CC) psi) (@amp (@rs_scalar CC) psi).
Proof.
  intros Hf HH Hdt E Es. destruct (C59_forest_ruth us Dmax s Hf E) as (P & z & e & E1 & _ & _ & _ & _ & HA). rewrite Es in E1. apply Ok_inj' in E1. injection E1 as <- <- <-.
  specialize (HA eq_refl). unfold inner at 1. 
  rewrite <- (C61_scalar_product 2 us (@amp (@rs_scalar CC) psi) (@amp (@rs_scalar CC) psi) HH Hdt E). cbn [nth]. unfold inner.
  apply (@sumcfg_ext (@rs_scalar CC)). intros is His. rewrite (HA is His). reflexivity.
Qed.

Lemma bonds_ok l us cs Dmax s psi' s' es : Forall (fun x => (fst x <= 1)%nat) l -> (0 < Dmax)%nat -> flag <> 0%R -> solver_new expm l H dt = Ok us ->
  (forall c : nat * (R * bool), In c cs -> (fst c < length l)%nat /\ fst (snd c) = MPS_DEFAULT_TOLERANCE) ->
  (exists c, In c cs /\ par l (fst c) = 0%nat) -> (exists c, In c cs /\ par l (fst c) = 1%nat) ->
  @exec_calls CC svd flag simplify us (map (fun c : nat * (R * bool) => Apply (fst c) (fst (snd c)) Dmax (snd (snd c))) cs) (psi, s) = Ok (psi', s', es) ->
  @linked (@rs_scalar CC) D psi' D /\ pdims psi' = h_dims H /\ forall j, (S j < length psi')%nat -> (dim (site psi' (S j)) 0 <= Dmax)%nat.
Proof.
  intros Hl HDm Hf E Hc (c0 & I0 & P0) (c1 & I1 & P1) Ex.
  destruct (@exec_bonds CC svd flag Hsvd simplify us (par l) (h_dims H) (dims_pos H HF) D Dmax HD HDm Hf cs) with (psi := psi) (s := s) (psi' := psi') (s' := s') (es := es) as (A & B & C); try assumption.
  - intros c Hin. destruct (Hc c Hin) as (X & Y). split; [apply (layers_ok l H dt us HF Hl E (fst c) X)|]. rewrite Y, def_tol. exact Hf.
  - split; [exact A|]. split; [exact B|]. intros j Hj. apply C. right.
    assert (Hlen : length psi' = length (h_dims H)) by (rewrite <- B; symmetry; apply length_pdims).
    pose proof (bond_in_layer j (length (h_dims H)) ltac:(lia)) as Hb. destruct (Nat.even j).
    + exists c0. split; [exact I0|]. rewrite P0. exact Hb.
    + exists c1. split; [exact I1|]. rewrite P1. exact Hb.
Qed.

(** C59.  With TRUNCATE_EACH_UNITARY all bonds of the result are at most Dmax, whatever the bonds of the
    state before; for all three solvers, with and without normalisation. *)
Theorem C59_bonds (sol : nat) us Dmax nrm s psi' s' e : (0 < Dmax)%nat -> flag <> 0%R ->
  let l := nth sol [trotter2_unitaries; trotter3_unitaries; forest_ruth_unitaries] [] in
  let calls := nth sol [trotter2_calls; trotter3_calls; forest_ruth_calls] trotter2_calls in
  (sol < 3)%nat -> solver_new expm l H dt = Ok us ->
  @one_step CC svd flag simplify calls us TruncateEachUnitary Dmax nrm (psi, s) = Ok (psi', s', e) ->
  @linked (@rs_scalar CC) D psi' D /\ pdims psi' = h_dims H /\ forall j, (S j < length psi')%nat -> (dim (site psi' (S j)) 0 <= Dmax)%nat.
Proof.
  intros HDm Hf l calls Hsol E Ex. unfold one_step in Ex. replace (Nat.eqb Dmax 0) with false in Ex by (symmetry; apply Nat.eqb_neq; lia). cbn [andb] in Ex.
  destruct (@exec_calls CC svd flag simplify us (map fst (calls TruncateEachUnitary Dmax nrm)) (psi, s)) as [[[P' z] es]|] eqn:Ee; [|discriminate]. cbn [bind] in Ex.
  apply Ok_inj' in Ex. injection Ex as -> -> _. set (t := MPS_DEFAULT_TOLERANCE) in *.
  destruct sol as [|[|[|sol]]]; [| | |lia]; subst l calls; cbn [nth] in *.
  - apply (bonds_ok trotter2_unitaries us [(0, (t, false)); (1, (t, nrm))]%nat Dmax s psi' s' es); try assumption.
    + repeat constructor.
    + intros c Hc. cbn in Hc. repeat (destruct Hc as [<-|Hc]; [cbn; split; [lia|reflexivity]|]). destruct Hc.
    + exists (0, (t, false))%nat. split; [left; reflexivity|reflexivity].
    + exists (1, (t, nrm))%nat. split; [right; left; reflexivity|reflexivity].
  - apply (bonds_ok trotter3_unitaries us [(1, (t, false)); (0, (t, false)); (1, (t, nrm))]%nat Dmax s psi' s' es); try assumption.
    + repeat constructor.
    + intros c Hc. cbn in Hc. repeat (destruct Hc as [<-|Hc]; [cbn; split; [lia|reflexivity]|]). destruct Hc.
    + exists (1, (t, false))%nat. split; [left; reflexivity|reflexivity].
    + exists (0, (t, false))%nat. split; [right; left; reflexivity|reflexivity].
  - apply (bonds_ok forest_ruth_unitaries us [(0, (t, false)); (1, (t, false)); (2, (t, false)); (3, (t, false)); (2, (t, false)); (1, (t, false)); (0, (t, nrm))]%nat Dmax s psi' s' es); try assumption.
    + repeat constructor.
    + intros c Hc. cbn in Hc. repeat (destruct Hc as [<-|Hc]; [cbn; split; [lia|reflexivity]|]). destruct Hc.
    + exists (0, (t, false))%nat. split; [left; reflexivity|reflexivity].
    + exists (1, (t, false))%nat. split; [right; left; reflexivity|reflexivity].
Qed.

Lemma exec_app us l1 l2 st r : @exec_calls CC svd flag simplify us (l1 ++ l2) st = Ok r ->
  exists st1 es1 es2, @exec_calls CC svd flag simplify us l1 st = Ok (st1, es1) /\ @exec_calls CC svd flag simplify us l2 st1 = Ok (fst r, es2).
Proof.
  revert st r. induction l1 as [|c l1 IH]; intros st r E.
  - exists st, [], (snd r). cbn. split; [reflexivity|]. destruct r. exact E.
  - cbn [app exec_calls] in E |- *. destruct (@exec_call CC svd flag simplify us st c) as [[st' e]|]; [|discriminate]. cbn [bind] in *.
    destruct (@exec_calls CC svd flag simplify us (l1 ++ l2) st') as [[st'' es]|] eqn:E2; [|discriminate]. cbn [bind] in E. apply Ok_inj' in E. subst r. cbn [fst].
    destruct (IH st' _ E2) as (st1 & es1 & es2 & A & B). exists st1, (e :: es1), es2. rewrite A. split; [reflexivity|exact B].
Qed.

Lemma last_normal l us n t Dm P s P' s' es : Forall (fun x => (fst x <= 1)%nat) l -> flag <> 0%R -> solver_new expm l H dt = Ok us -> (n < length l)%nat -> eff_tol flag t <> 0%R ->
  @linked (@rs_scalar CC) 1 P 1 -> pdims P = h_dims H ->
  @exec_calls CC svd flag simplify us [Apply n t Dm true] (P, s) = Ok (P', s', es) ->
  @open_mps (@rs_scalar CC) P' /\ pdims P' = h_dims H /\ @inner (@rs_scalar CC) (h_dims H) (@amp (@rs_scalar CC) P') (@amp (@rs_scalar CC) P') = mkC 1 0.
Proof.
  intros Hl Hf E Hn Ht HLP HpP Ex. pose proof (layers_ok l H dt us HF Hl E n Hn) as Hok.
  assert (Hlen : (0 < length P)%nat) by (rewrite <- (length_pdims P), HpP; apply dims_pos; exact HF).
  destruct (@apply_any CC svd flag Hsvd (@u_no CC us n) (par l n) P 1 1 s t Dm) as (Q & e & E1 & A1 & A2 & _); try assumption; [rewrite HpP; exact Hok|lia|right; exact Hf|].
  cbn [exec_calls exec_call fst snd] in Ex. fold (@u_no CC us n) in Ex.
  destruct (@u_apply CC svd flag (@u_no CC us n) P s t Dm true) as [[[P2 s2] e2]|] eqn:E2; [|discriminate Ex]. cbn [bind] in Ex. apply Ok_inj' in Ex. injection Ex as -> -> _.
  unfold u_apply in E1, E2. destruct (Nat.ltb (length (u_U (@u_no CC us n))) (length P)); [discriminate E1|]. cbv zeta in E1, E2.
  match type of E1 with bind ?x _ = _ => destruct x as [[Q' q]|]; [|discriminate E1] end. cbn [bind] in E1, E2.
  apply Ok_inj' in E1. injection E1 as -> _.
  match type of E2 with bind (normal_form _ _ _ ?z) _ = _ => destruct (@normal_form CC svd flag Q z) as [P2|] eqn:E4; [|discriminate E2]; rewrite (proj2 (@C14_canonical_form_sense CC svd flag Q z)) in E4 end.
  cbn [bind] in E2. apply Ok_inj' in E2. assert (EP1 : P2 = P') by congruence. subst P2.
  assert (HlQ : length Q = length P) by (rewrite <- (length_pdims Q), A2; apply length_pdims).
  assert (Hz : exists m, (if ((if (s =? 0)%Z then 1 else s) <? 0)%Z then 0 else Z.of_nat (length Q) - 1)%Z = Z.of_nat m /\ (m < length Q)%nat).
  { destruct (_ <? 0)%Z; [exists 0%nat; lia|exists (length Q - 1)%nat; lia]. }
  destruct Hz as (m & Em & Hm). rewrite Em in E4.
  destruct (@C14_normal_form_unit CC svd flag Hsvd Q m P') as (B1 & B2 & _ & _ & B5); [split; [intros HQ; rewrite HQ in Hm; cbn in Hm; lia|exact A1]|exact Hm|left; exact Hf|exact E4|].
  split; [exact B1|]. assert (EP : pdims P' = h_dims H) by congruence. split; [exact EP|]. rewrite EP in B5. exact B5.
Qed.

(** C59.  With normalize set, an open state has norm one after a step with DO_NOT_TRUNCATE (Trotter3,
    Forest-Ruth) or TRUNCATE_EACH_UNITARY (all three solvers). *)
Theorem C59_normalized (sol : nat) us strat Dmax s psi' s' e : D = 1%nat -> flag <> 0%R ->
  let l := nth sol [trotter2_unitaries; trotter3_unitaries; forest_ruth_unitaries] [] in
  let calls := nth sol [trotter2_calls; trotter3_calls; forest_ruth_calls] trotter2_calls in
  (sol < 3)%nat -> (strat = TruncateEachUnitary \/ strat = DoNotTruncate /\ sol <> 0%nat) -> solver_new expm l H dt = Ok us ->
  @one_step CC svd flag simplify calls us strat Dmax true (psi, s) = Ok (psi', s', e) ->
  @open_mps (@rs_scalar CC) psi' /\ pdims psi' = h_dims H /\ @inner (@rs_scalar CC) (h_dims H) (@amp (@rs_scalar CC) psi') (@amp (@rs_scalar CC) psi') = mkC 1 0.
Proof.
  intros HD1 Hf l calls Hsol Hst E Ex. assert (Hl : Forall (fun x => (fst x <= 1)%nat) l) by (subst l; destruct sol as [|[|[|sol]]]; [| | |lia]; cbn [nth]; repeat (constructor; [cbn; lia|]); constructor).
  assert (HDm : strat = DoNotTruncate \/ (0 < Dmax)%nat).
  { destruct Hst as [-> | (-> & _)]; [right|left; reflexivity]. destruct Dmax; [|lia]. discriminate Ex. }
  unfold one_step in Ex. match type of Ex with (if ?b then _ else _) = _ => destruct b; [discriminate Ex|] end.
  destruct (@exec_calls CC svd flag simplify us (map fst (calls strat Dmax true)) (psi, s)) as [[[P' z] es]|] eqn:Ee; [|discriminate]. cbn [bind] in Ex.
  apply Ok_inj' in Ex. injection Ex as -> -> _.
  assert (Hsplit : exists (cs : list (nat * R)) n t Dm, map fst (calls strat Dmax true) = map (fun c : nat * R => Apply (fst c) (snd c) Dm false) cs ++ [Apply n t Dm true] /\
     (n < length l)%nat /\ eff_tol flag t <> 0%R /\ (forall c, In c cs -> (fst c < length l)%nat /\ eff_tol flag (snd c) <> 0%R)).
  { assert (Hdt : eff_tol flag MPS_DEFAULT_TOLERANCE <> 0%R) by (rewrite def_tol; exact Hf). pose proof eps_ok as Het.
    destruct Hst as [-> | (-> & Hs0)]; destruct sol as [|[|[|sol]]]; try lia; subst l calls; cbn [nth].
    - exists [(0%nat, MPS_DEFAULT_TOLERANCE)], 1%nat, MPS_DEFAULT_TOLERANCE, Dmax. split; [reflexivity|]. split; [cbn; lia|]. split; [exact Hdt|].
      intros c [<-|[]]. cbn. split; [lia|exact Hdt].
    - exists [(1%nat, MPS_DEFAULT_TOLERANCE); (0%nat, MPS_DEFAULT_TOLERANCE)], 1%nat, MPS_DEFAULT_TOLERANCE, Dmax. split; [reflexivity|]. split; [cbn; lia|]. split; [exact Hdt|].
      intros c [<-|[<-|[]]]; cbn; (split; [lia|exact Hdt]).
    - set (t := MPS_DEFAULT_TOLERANCE) in *. exists [(0, t); (1, t); (2, t); (3, t); (2, t); (1, t)]%nat, 0%nat, t, Dmax. split; [reflexivity|]. split; [cbn; lia|]. split; [exact Hdt|].
      intros c Hc. cbn in Hc. repeat (destruct Hc as [<-|Hc]; [cbn; split; [lia|exact Hdt]|]). destruct Hc.
    - exists [(1%nat, MPS_TRUNCATE_EPSILON); (0%nat, MPS_TRUNCATE_EPSILON)], 1%nat, MPS_TRUNCATE_EPSILON, 0%nat. split; [reflexivity|]. split; [cbn; lia|]. split; [exact Het|].
      intros c [<-|[<-|[]]]; cbn; (split; [lia|exact Het]).
    - set (t := MPS_DEFAULT_TOLERANCE) in *. exists [(0, t); (1, t); (2, t); (3, t); (2, t); (1, t)]%nat, 0%nat, t, 0%nat. split; [reflexivity|]. split; [cbn; lia|]. split; [exact Hdt|].
      intros c Hc. cbn in Hc. repeat (destruct Hc as [<-|Hc]; [cbn; split; [lia|exact Hdt]|]). destruct Hc. }
  destruct Hsplit as (cs & n & t & Dm & Ecs & Hn & Ht & Hcs). rewrite Ecs in Ee. destruct (exec_app _ _ _ _ _ Ee) as ([P1 s1] & es1 & es2 & E1 & E2). cbn [fst] in E2.
  assert (HP1 : @linked (@rs_scalar CC) 1 P1 1 /\ pdims P1 = h_dims H).
  { rewrite HD1 in *. destruct Dm as [|Dm].
    - destruct (run_exact l H dt us cs 1 psi s HF Hl E Hcs ltac:(lia) HL Hp) as (Q & z & es' & EQ & Q1 & Q2 & _).
      assert (X : Ok (P1, s1, es1) = Ok (Q, z, es')) by (rewrite <- E1; exact EQ). apply Ok_inj' in X. injection X as -> _ _. auto.
    - destruct (@exec_bonds CC svd flag Hsvd simplify us (par l) (h_dims H) (dims_pos H HF) 1 (S Dm) ltac:(lia) ltac:(lia) Hf (map (fun c : nat * R => (fst c, (snd c, false))) cs))
        with (psi := psi) (s := s) (psi' := P1) (s' := s1) (es := es1) as (A & B & _); [|exact HL|exact Hp| |auto].
      + intros c Hc. apply in_map_iff in Hc. destruct Hc as (c' & <- & Hc'). cbn [fst snd]. destruct (Hcs c' Hc') as (X & Y). split; [apply (layers_ok l H dt us HF Hl E (fst c') X)|exact Y].
      + rewrite map_map. cbn [fst snd]. exact E1. }
  destruct HP1 as (HP1 & HP2). apply (last_normal l us n t Dm P1 s1 psi' s' es2); assumption.
Qed.

(** C59. DEFECT: Trotter2Solver ignores normalize with DO_NOT_TRUNCATE. *)
Theorem C59_trotter2_normalize_refuted us Dmax st :
  @one_step CC svd flag simplify trotter2_calls us DoNotTruncate Dmax true st = @one_step CC svd flag simplify trotter2_calls us DoNotTruncate Dmax false st.
Proof. reflexivity. Qed.
End Step.
End Evolution.

(** ** Order of the three formulas *)
(** The layers of one step as a product of exponentials exp(c_i X_i t): the factor c_i of dt, and whether X_i is
    the even part; the first layer applied is the rightmost factor of the product. *)
Definition formula (l : list (nat * R)) (cs : list (layer_call * bool)) : list (R * bool) :=
  rev (map (fun c => (snd (nth (call_no (fst c)) l (0%nat, 0%R)), Nat.eqb (par l (call_no (fst c))) 0)) cs).

Lemma not_accurate l m eps w : (length w <= m)%nat -> close_q l eps w = false -> ~ accurate (to_r l) m (Q2R eps).
Proof. intros Hw Hc HA. specialize (HA w Hw). apply close_q_iff in HA. congruence. Qed.
Lemma q2r a b : Q2R (a # b) = (IZR a / IZR (Z.pos b))%R.
Proof. reflexivity. Qed.
Lemma Q2R_0 : Q2R 0 = 0%R.
Proof. unfold Q2R. cbn. lra. Qed.

(** C60. Trotter2: exact to first order, not to second, for every strategy.  (The documentation in
    time_evolve.h:109-112 says "second order".) *)
Theorem C60_trotter2_refuted s Dmax nrm :
  accurate (formula trotter2_unitaries (trotter2_calls s Dmax nrm)) 1 0 /\ ~ accurate (formula trotter2_unitaries (trotter2_calls s Dmax nrm)) 2 (1 / 3).
Proof.
  assert (E : formula trotter2_unitaries (trotter2_calls s Dmax nrm) = to_r [(1, false); (1, true)]%Q).
  { unfold formula. destruct s; cbn; rewrite !q2r; repeat f_equal; lra. }
  rewrite E. split.
  - rewrite <- Q2R_0. apply accurate_q. vm_compute. reflexivity.
  - replace (1 / 3)%R with (Q2R (1 # 3)) by (rewrite q2r; reflexivity). apply (not_accurate _ _ _ [true; false]); [cbn; lia|vm_compute; reflexivity].
Qed.
(** C60. Trotter3: exact to second order, not to third. *)
Theorem C60_trotter3 s Dmax nrm :
  accurate (formula trotter3_unitaries (trotter3_calls s Dmax nrm)) 2 0 /\ ~ accurate (formula trotter3_unitaries (trotter3_calls s Dmax nrm)) 3 (1 / 24).
Proof.
  assert (E : formula trotter3_unitaries (trotter3_calls s Dmax nrm) = to_r [(1 # 2, true); (1, false); (1 # 2, true)]%Q).
  { unfold formula. destruct s; cbn; rewrite !q2r; repeat f_equal; lra. }
  rewrite E. split.
  - rewrite <- Q2R_0. apply accurate_q. vm_compute. reflexivity.
  - replace (1 / 24)%R with (Q2R (1 # 24)) by (rewrite q2r; reflexivity). apply (not_accurate _ _ _ [false; true; false]); [cbn; lia|vm_compute; reflexivity].
Qed.
(** C60. Forest-Ruth: fourth order up to the rounding of its constants (3e-15), not fifth. *)
Theorem C60_forest_ruth s Dmax nrm :
  accurate (formula forest_ruth_unitaries (forest_ruth_calls s Dmax nrm)) 4 (3 / 10 ^ 15) /\ ~ accurate (formula forest_ruth_unitaries (forest_ruth_calls s Dmax nrm)) 5 (1 / 10).
Proof.
  set (a := 67560359597983 # 100000000000000). set (b := 135120719195966 # 100000000000000). set (c := -17560359597983 # 100000000000000). set (d := -170241438391932 # 100000000000000).
  assert (E : formula forest_ruth_unitaries (forest_ruth_calls s Dmax nrm) = to_r [(a, true); (b, false); (c, true); (d, false); (c, true); (b, false); (a, true)]%Q).
  { unfold formula. destruct s; cbn; unfold a, b, c, d; rewrite !q2r; repeat f_equal; lra. }
  rewrite E. split.
  - replace (3 / 10 ^ 15)%R with (Q2R (3 # 1000000000000000)) by (rewrite q2r; lra). apply accurate_q. vm_compute. reflexivity.
  - replace (1 / 10)%R with (Q2R (1 # 10)) by (rewrite q2r; reflexivity).
    apply (not_accurate _ _ _ [false; true; false; true; false]); [cbn; lia|vm_compute; reflexivity].
Qed.

(** ** An instance of the hypotheses: three spins with interaction |11><11| and local terms sigma_x *)
Definition zz4 : @tensor (@rs_scalar CC) := @mk (@rs_scalar CC) [4; 4]%nat (fun is => match is with [3; 3]%nat => mkC 1 0 | _ => mkC 0 0 end).
Definition sx2 : @tensor (@rs_scalar CC) := @mk (@rs_scalar CC) [2; 2]%nat (fun is => match is with [0; 1]%nat | [1; 0]%nat => mkC 1 0 | _ => mkC 0 0 end).
Definition up3 : list (@tensor (@rs_scalar CC)) := repeat (@mk (@rs_scalar CC) [1; 2; 1]%nat (fun is => match is with [_; 0; _]%nat => mkC 1 0 | _ => mkC 0 0 end)) 3.

Lemma zz_data : @ti_data (@rs_scalar CC) 2 zz4 sx2.
Proof.
  split; [lia|]. split; [left; split; [reflexivity|apply wf_mk]|]. split; [left; split; [reflexivity|apply wf_mk]|].
  intros (H & _). apply (f_equal (fun t => length (@data (@rs_scalar CC) t))) in H. cbn in H. discriminate H.
Qed.

Example C61_instance : exists expm svd H us psi' s',
  expm_contract expm /\ @svd_contract CC svd /\ @ti_new (@rs_scalar CC) 3 zz4 sx2 false 2 [zz4] [zz4] = Ok H /\ @full_terms CC H /\ hermitian_terms H /\
  solver_new expm forest_ruth_unitaries H (mkC (1 / 10) 0) = Ok us /\
  @one_step CC svd 1 (fun _ _ _ => Abort) forest_ruth_calls us DoNotTruncate 0 false (up3, 0%Z) = Ok (psi', s', 0%R) /\
  @inner (@rs_scalar CC) [2; 2; 2]%nat (@amp (@rs_scalar CC) psi') (@amp (@rs_scalar CC) psi') = mkC 1 0.
Proof.
  destruct expm_contract_satisfiable as (expm & He). destruct (@svd_contract_satisfiable CC) as (svd & Hs).
  destruct (@ti_full CC 3 2 zz4 sx2 false [zz4] [zz4] zz_data ltac:(lia)) as (H & E & HF & HsN & Eds & _).
  assert (HH : hermitian_terms H).
  { unfold ti_new in E. cbn [is_empty zz4 sx2] in E. apply Ok_inj' in E. subst H. split; cbn [h_size h_dim h_local h_interaction].
    - intros k i j _. cbn. intros Hi Hj. destruct i as [|[|i]]; try lia; destruct j as [|[|j]]; try lia; apply C_ext; cbn; ring.
    - intros k i j _. cbn. intros Hi Hj. destruct i as [|[|[|[|i]]]]; try lia; destruct j as [|[|[|[|j]]]]; try lia; apply C_ext; cbn; ring. }
  destruct (solver_new_ok expm forest_ruth_unitaries H (mkC (1 / 10) 0) HF) as (us & Eu & _); [repeat constructor|].
  assert (HL : @linked (@rs_scalar CC) 1 up3 1).
  { cbn. exists 2%nat, 1%nat. repeat split; try lia. exists 2%nat, 1%nat. repeat split; try lia. exists 2%nat, 1%nat. repeat split; lia. }
  assert (Hp : pdims up3 = h_dims H) by (rewrite Eds; reflexivity).
  destruct (C59_forest_ruth expm He svd Hs 1 (fun _ _ _ => Abort) H (mkC (1 / 10) 0) HF 1 ltac:(lia) up3 HL Hp us 0 0 ltac:(lra) Eu) as (psi' & s' & e & E1 & _ & _ & _ & He0 & _).
  assert (e = 0%R) by (apply He0; lra). subst e.
  exists expm, svd, H, us, psi', s'. split; [exact He|]. split; [exact Hs|]. split; [exact E|]. split; [exact HF|]. split; [exact HH|]. split; [exact Eu|]. split; [exact E1|].
  pose proof (C61_norm expm He svd Hs 1 (fun _ _ _ => Abort) H (mkC (1 / 10) 0) HF 1 ltac:(lia) up3 HL Hp us 0 0 psi' s' ltac:(lra) HH eq_refl Eu E1) as N.
  rewrite Eds in N. cbn [repeat] in N. rewrite N. unfold up3, inner. cbn. apply C_ext; cbn; ring.
Qed.
