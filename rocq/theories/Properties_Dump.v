(** * Printing an operator: every block once, in order; the listing determines the operator (C75) *)
From Coq Require Import List Arith Lia Sorted.
From Verif Require Import Scalar ScalarFacts Tensor TensorFacts Spec MpsModel MpoSpec MpoModel DumpModel.
Import ListNotations.

Section Dump.
Context {SC : Scalar}.

(** The header of an entry, and the order in which headers come *)
Definition header (e : entry) : nat * nat * nat := let '(n, i, j, _) := e in (n, i, j).
Definition before (a b : nat * nat * nat) : Prop :=
  let '(n, i, j) := a in let '(n', i', j') := b in n < n' \/ n = n' /\ (i < i' \/ i = i' /\ j < j').

Lemma before_trans a b c : before a b -> before b c -> before a c.
Proof. destruct a as ((n & i) & j), b as ((n' & i') & j'), c as ((n2 & i2) & j2). unfold before. lia. Qed.

Lemma block_ok P i j : rank P = 4 -> i < dim P 0 -> j < dim P 3 -> dims (dump_block P i j) = [dim P 1; dim P 2] /\ wf (dump_block P i j) /\
  forall a b, a < dim P 1 -> b < dim P 2 -> get (dump_block P i j) [a; b] = get P [i; a; b; j].
Proof.
  intros _ Hi Hj. split; [reflexivity|]. split; [apply wf_reshape; [apply wf_mk|cbn; lia]|]. intros a b Ha Hb. unfold dump_block.
  rewrite (get_reshape _ _ _ [0; a; b; 0]) by (cbn; lia). rewrite get_mk by (apply in_range_4; lia). reflexivity.
Qed.

Lemma dump_tensor_in n P l e : dump_tensor n P = Ok l -> (In e l <-> exists i j, i < dim P 0 /\ j < dim P 3 /\ e = (n, i, j, dump_block P i j)).
Proof.
  unfold dump_tensor. destruct (Nat.eqb (rank P) 4); [|discriminate]. intros [= <-]. rewrite in_flat_map. split.
  - intros (i & Hi & He). apply in_map_iff in He as (j & <- & Hj). apply in_seq in Hi. apply in_seq in Hj. exists i, j. repeat split; lia.
  - intros (i & j & Hi & Hj & ->). exists i. split; [apply in_seq; lia|]. apply in_map_iff. exists j. split; [reflexivity|apply in_seq; lia].
Qed.

Lemma sorted_app {A} (R : A -> A -> Prop) (l l' : list A) : StronglySorted R l -> StronglySorted R l' -> (forall x y, In x l -> In y l' -> R x y) -> StronglySorted R (l ++ l').
Proof.
  induction 1 as [|x l Hl IH Hx]; intros Hl' Hc; [exact Hl'|]. cbn. constructor.
  - apply IH; [exact Hl'|]. intros a b Ha Hb. apply Hc; [right; exact Ha|exact Hb].
  - apply Forall_app. split; [exact Hx|]. apply Forall_forall. intros y Hy. apply Hc; [left; reflexivity|exact Hy].
Qed.
Definition sorted (l : list entry) : Prop := StronglySorted (fun a b => before (header a) (header b)) l.

Lemma dump_tensor_sorted n P l : dump_tensor n P = Ok l -> sorted l.
Proof.
  unfold dump_tensor. destruct (Nat.eqb (rank P) 4); [|discriminate]. intros [= <-]. unfold sorted. set (M := dim P 3).
  assert (G : forall N s, StronglySorted (fun a b : entry => before (header a) (header b)) (flat_map (fun i => map (fun j => (n, i, j, dump_block P i j)) (seq 0 M)) (seq s N))); [|apply G].
  induction N as [|N IH]; intros s; [constructor|]. cbn [seq flat_map]. apply sorted_app; [|apply IH|].
  - assert (G : forall K t, StronglySorted (fun a b : entry => before (header a) (header b)) (map (fun j => (n, s, j, dump_block P s j)) (seq t K))); [|apply G].
    induction K as [|K IHM]; intros t; [constructor|]. cbn [seq map]. constructor; [apply IHM|]. apply Forall_forall. intros e He. apply in_map_iff in He as (j & <- & Hj). apply in_seq in Hj. cbn. lia.
  - intros x y Hx Hy. apply in_map_iff in Hx as (j & <- & Hj). apply in_flat_map in Hy as (i & Hi & Hy). apply in_map_iff in Hy as (j' & <- & _). apply in_seq in Hi. cbn. lia.
Qed.

Lemma dump_from_ok : forall H n l, dump_from n H = Ok l ->
  (forall P, In P H -> rank P = 4) /\ sorted l /\
  forall e, In e l <-> exists k i j, k < length H /\ i < dim (nth k H empty) 0 /\ j < dim (nth k H empty) 3 /\ e = (n + k, i, j, dump_block (nth k H empty) i j).
Proof.
  induction H as [|P H IH]; intros n l E; cbn [dump_from] in E.
  - injection E as <-. split; [intros P []|]. split; [constructor|]. intros e. split; [intros []|]. intros (k & i & j & Hk & _). cbn in Hk. lia.
  - destruct (dump_tensor n P) as [l1|] eqn:E1; cbn [bind] in E; [|discriminate]. destruct (dump_from (S n) H) as [l2|] eqn:E2; cbn [bind] in E; [|discriminate]. injection E as <-.
    destruct (IH (S n) l2 E2) as (I1 & I2 & I3). split; [|split].
    + intros Q [<-|HQ]; [|apply I1; exact HQ]. unfold dump_tensor in E1. destruct (Nat.eqb_spec (rank P) 4); [assumption|discriminate].
    + apply sorted_app; [exact (dump_tensor_sorted n P l1 E1)|exact I2|]. intros x y Hx Hy. apply (dump_tensor_in n P l1 x E1) in Hx as (i & j & _ & _ & ->). apply I3 in Hy as (k & i' & j' & _ & _ & _ & ->). cbn. lia.
    + intros e. rewrite in_app_iff, (dump_tensor_in n P l1 e E1), I3. split.
      * intros [(i & j & Hi & Hj & ->)|(k & i & j & Hk & Hi & Hj & ->)].
        -- exists 0, i, j. rewrite Nat.add_0_r. cbn [nth length]. repeat split; lia.
        -- exists (S k), i, j. rewrite Nat.add_succ_r. cbn [nth length Nat.add]. repeat split; lia.
      * intros (k & i & j & Hk & Hi & Hj & ->). destruct k as [|k].
        -- left. exists i, j. rewrite Nat.add_0_r. auto.
        -- right. exists k, i, j. rewrite Nat.add_succ_r. cbn [nth length Nat.add] in *. repeat split; lia.
Qed.

(** Printing succeeds for every list of tensors with four indices, and only for these. *)
Theorem C75_returns (H : mpo) : (forall P, In P H -> rank P = 4) <-> exists l, dump H = Ok l.
Proof.
  unfold dump. split.
  - enough (G : forall n, (forall P, In P H -> rank P = 4) -> exists l, dump_from n H = Ok l) by (apply G). induction H as [|P H IH]; intros n HP; [eexists; reflexivity|]. cbn [dump_from]. unfold dump_tensor. destruct (Nat.eqb_spec (rank P) 4) as [_|F]; [|destruct (F (HP P (or_introl eq_refl)))]. cbn [bind].
    destruct (IH (S n) (fun Q HQ => HP Q (or_intror HQ))) as (l & ->). cbn [bind]. eexists. reflexivity.
  - intros (l & E). exact (proj1 (dump_from_ok H 0 l E)).
Qed.

(** The listing consists of one matrix for each site n and each pair of bond indices (i,j) of its tensor, in this order, with the elements P(i,a,b,j). *)
Theorem C75_blocks (H : mpo) l : dump H = Ok l ->
  sorted l /\
  (forall n i j, (exists M, In (n, i, j, M) l) <-> n < length H /\ i < dim (nth n H empty) 0 /\ j < dim (nth n H empty) 3) /\
  forall n i j M, In (n, i, j, M) l -> let P := nth n H empty in
    dims M = [dim P 1; dim P 2] /\ forall a b, a < dim P 1 -> b < dim P 2 -> get M [a; b] = get P [i; a; b; j].
Proof.
  intros E. destruct (dump_from_ok H 0 l E) as (H1 & H2 & H3). split; [exact H2|]. split.
  - intros n i j. split.
    + intros (M & HM). apply H3 in HM as (k & i' & j' & Hk & Hi & Hj & Q). injection Q as -> -> -> ->. auto.
    + intros (Hn & Hi & Hj). exists (dump_block (nth n H empty) i j). apply H3. exists n, i, j. auto.
  - intros n i j M HM P. apply H3 in HM as (k & i' & j' & Hk & Hi & Hj & Q). injection Q as -> -> -> ->. fold P in Hi, Hj |- *.
    destruct (block_ok P i' j' (H1 P (nth_In H empty Hk)) Hi Hj) as (B1 & _ & B3). auto.
Qed.

(** A header does not appear twice. *)
Theorem C75_once (H : mpo) l : dump H = Ok l -> NoDup (map header l).
Proof.
  intros E. destruct (dump_from_ok H 0 l E) as (_ & H2 & _). clear E. induction H2 as [|x l Hl IH Hx]; [constructor|]. cbn [map]. constructor; [|exact IH].
  intros HI. apply in_map_iff in HI as (y & Ey & Hy). rewrite Forall_forall in Hx. specialize (Hx y Hy). rewrite Ey in Hx. destruct (header x) as ((n & i) & j). unfold before in Hx. lia.
Qed.

(** Two operators with the same listing are equal, if no bond has dimension zero. *)
Theorem C75_faithful (H H' : mpo) l : (forall P, In P (H ++ H') -> wf P /\ 0 < dim P 0 /\ 0 < dim P 3) -> dump H = Ok l -> dump H' = Ok l -> H = H'.
Proof.
  intros Hp E E'. destruct (dump_from_ok H 0 l E) as (R1 & _ & R3). destruct (dump_from_ok H' 0 l E') as (R1' & _ & R3').
  assert (Hin : forall n i j, n < length H /\ i < dim (nth n H empty) 0 /\ j < dim (nth n H empty) 3 <-> n < length H' /\ i < dim (nth n H' empty) 0 /\ j < dim (nth n H' empty) 3).
  { intros n i j. rewrite <- (proj1 (proj2 (C75_blocks H l E)) n i j), <- (proj1 (proj2 (C75_blocks H' l E')) n i j). reflexivity. }
  assert (Hp1 : forall n, n < length H -> 0 < dim (nth n H empty) 0 /\ 0 < dim (nth n H empty) 3) by (intros n Hn; apply Hp; apply in_or_app; left; apply nth_In; exact Hn).
  assert (Hp2 : forall n, n < length H' -> 0 < dim (nth n H' empty) 0 /\ 0 < dim (nth n H' empty) 3) by (intros n Hn; apply Hp; apply in_or_app; right; apply nth_In; exact Hn).
  assert (HL : length H = length H').
  { destruct (lt_eq_lt_dec (length H) (length H')) as [[Hl|Hl]|Hl]; [|exact Hl|].
    - destruct (Hp2 (length H) Hl). pose proof (proj2 (Hin (length H) 0 0) ltac:(auto)). lia.
    - destruct (Hp1 (length H') Hl). pose proof (proj1 (Hin (length H') 0 0) ltac:(auto)). lia. }
  apply (nth_ext _ _ empty empty HL). intros n Hn. assert (Hn' : n < length H') by lia.
  destruct (Hp1 n Hn) as (P0 & P3). destruct (Hp2 n Hn') as (Q0 & Q3). pose proof (Hin n) as Hi2. set (P := nth n H empty) in *. set (Q := nth n H' empty) in *.
  assert (D0 : dim P 0 = dim Q 0).
  { destruct (lt_eq_lt_dec (dim P 0) (dim Q 0)) as [[Hl|Hl]|Hl]; [|exact Hl|]; [pose proof (proj2 (Hi2 (dim P 0) 0) ltac:(auto))|pose proof (proj1 (Hi2 (dim Q 0) 0) ltac:(auto))]; lia. }
  assert (D3 : dim P 3 = dim Q 3).
  { destruct (lt_eq_lt_dec (dim P 3) (dim Q 3)) as [[Hl|Hl]|Hl]; [|exact Hl|]; [pose proof (proj2 (Hi2 0 (dim P 3)) ltac:(auto))|pose proof (proj1 (Hi2 0 (dim Q 3)) ltac:(auto))]; lia. }
  assert (HB : forall i j, i < dim P 0 -> j < dim P 3 -> dump_block P i j = dump_block Q i j).
  { intros i j Hi Hj. assert (HI : In (n, i, j, dump_block P i j) l) by (apply R3; exists n, i, j; auto). apply R3' in HI as (k & i' & j' & _ & _ & _ & EQQ). pose proof (f_equal snd EQQ) as E3. pose proof (f_equal header EQQ) as E4. cbn [snd header] in E3, E4. injection E4 as <- <- <-. exact E3. }
  assert (D12 : dim P 1 = dim Q 1 /\ dim P 2 = dim Q 2) by (pose proof (f_equal dims (HB 0 0 P0 P3)) as D; cbn in D; injection D as D1 D2; auto).
  destruct D12 as (D1 & D2).
  pose proof (R1 P (nth_In H empty Hn)) as RP. pose proof (R1' Q (nth_In H' empty Hn')) as RQ.
  assert (EP : dims P = [dim P 0; dim P 1; dim P 2; dim P 3]) by (unfold rank, dim in *; destruct (dims P) as [|a [|b [|c [|d [|]]]]]; cbn in RP; try lia; reflexivity).
  assert (EQd : dims Q = [dim Q 0; dim Q 1; dim Q 2; dim Q 3]) by (unfold rank, dim in *; destruct (dims Q) as [|a [|b [|c [|d [|]]]]]; cbn in RQ; try lia; reflexivity).
  apply tensor_ext; [apply Hp; apply in_or_app; left; apply nth_In; exact Hn|apply Hp; apply in_or_app; right; apply nth_In; exact Hn'|congruence|].
  rewrite EP. intros is Hi. apply in_range_cons_inv in Hi as (i & r1 & -> & Hi & Hr). apply in_range_cons_inv in Hr as (a & r2 & -> & Ha & Hr). apply in_range_cons_inv in Hr as (b & r3 & -> & Hb & Hr).
  apply in_range_cons_inv in Hr as (j & r4 & -> & Hj & Hr). apply in_range_nil_inv in Hr. subst r4.
  destruct (block_ok P i j RP Hi Hj) as (_ & _ & B). destruct (block_ok Q i j RQ ltac:(lia) ltac:(lia)) as (_ & _ & B').
  rewrite <- (B a b Ha Hb), <- (B' a b ltac:(lia) ltac:(lia)), (HB i j Hi Hj). reflexivity.
Qed.

(** A case: a tensor with bond dimensions 1 and 2, and one with 2 and 1 *)
Theorem C75_case (x y : tensor) : dims x = [2; 2] -> dims y = [2; 2] ->
  let A := mk [1; 2; 2; 2] (fun q => if Nat.eqb (nth 3 q 0) 0 then get x [nth 1 q 0; nth 2 q 0] else get y [nth 1 q 0; nth 2 q 0]) in
  let B := mk [2; 2; 2; 1] (fun q => if Nat.eqb (nth 0 q 0) 0 then get y [nth 1 q 0; nth 2 q 0] else get x [nth 1 q 0; nth 2 q 0]) in
  exists l, dump [A; B] = Ok l /\ map header l = [(0, 0, 0); (0, 0, 1); (1, 0, 0); (1, 1, 0)] /\ (wf x -> nth 0 (map snd l) empty = x) /\ forall P, In P ([A; B] ++ [A; B]) -> wf P /\ 0 < dim P 0 /\ 0 < dim P 3.
Proof.
  intros Dx Dy A B. eexists. split; [reflexivity|]. split; [reflexivity|]. split.
  - intros Wx. change (dump_block A 0 0 = x). destruct (block_ok A 0 0 eq_refl ltac:(cbn; lia) ltac:(cbn; lia)) as (E1 & E2 & E3). apply tensor_ext; [exact E2|exact Wx|rewrite E1, Dx; reflexivity|].
    rewrite E1. intros is Hi. apply in_range_cons_inv in Hi as (a & r1 & -> & Ha & Hr). apply in_range_cons_inv in Hr as (b & r2 & -> & Hb & Hr). apply in_range_nil_inv in Hr. subst r2.
    rewrite (E3 a b Ha Hb). unfold A. cbn in Ha, Hb. rewrite get_mk by (apply in_range_4; lia). reflexivity.
  - intros P HP. assert (P = A \/ P = B) as [->| ->] by (destruct HP as [<-|[<-|[<-|[<-|[]]]]]; auto); (split; [apply wf_mk|cbn; lia]).
Qed.
End Dump.
