(** Properties C116-C118: the program of examples/generate_sobol.cpp. *)
From Coq Require Import List ZArith Bool Lia Reals Lra.
From Flocq Require Import Core BinarySingleNaN.
From Verif Require Import M_Num M_Outcome M_Numeric M_Export S_Double S_Order L_B64 L_Order L_McDouble.
Import ListNotations.
Local Open Scope R_scope.

(** ** Specification vocabulary *)
Definition UINT_MAX : Z := 4294967295.
(** The line for coordinate [d] of point [i] (both counted from 0) in dimension [s]: the
    engines are read in this order, one number after the other. *)
Definition line_of {T} {num : Num T} (E : Engines T) (s i d : nat) : Line T :=
  let k := (i * s + d)%nat in
  (Z.of_nat (i + 1), Z.of_nat (d + 1), ndiv (nofZ (eSobol E k)) (nofZ (eSobolMax E)), ndiv (eFaure E k) (eFaureMax E), eUniform E k).
(** The table of all [n] points: n * s lines, the coordinates of a point together. *)
Definition full_table {T} {num : Num T} (E : Engines T) (n s : nat) (lines : list (Line T)) : Prop :=
  length lines = (n * s)%nat /\
  forall i d, (i < n)%nat -> (d < s)%nat -> nth_error lines (i * s + d) = Some (line_of E s i d).

(** ** C116: the file *)
Section File.
Context {T : Type} {num : Num T}.
Variable E : Engines T.

Lemma vget_map : forall (g : nat -> T) q n k, (k < n)%nat -> vget (map g (seq q n)) (Z.of_nat k) = Ok (g (q + k)%nat).
Proof.
  intros g q n k K. unfold vget. destruct (Z.ltb_spec (Z.of_nat k) 0); [lia|]. rewrite Nat2Z.id, nth_error_map.
  rewrite (nth_error_nth' (seq q n) 0%nat) by (rewrite seq_length; exact K). rewrite seq_nth by exact K. reflexivity.
Qed.
Definition line_at (i : Z) (q u d : nat) : Line T :=
  (i, Z.of_nat (d + 1), ndiv (nofZ (eSobol E (q + d))) (nofZ (eSobolMax E)), ndiv (eFaure E (q + d)) (eFaureMax E), eUniform E (u + d)).

Lemma write_point_ok : forall n q i s u m d fuel, Z.of_nat n = s -> (s + 1 < UINT_MOD)%Z -> (d + m = n)%nat -> (m <= fuel)%nat ->
  write_point fuel E (map (fun k => nofZ (eSobol E k)) (seq q n)) (map (eFaure E) (seq q n)) i s (Z.of_nat (d + 1)) (u + d) =
  Some (Ok (map (line_at i q u) (seq d m), (u + n)%nat)).
Proof.
  intros n q i s u. induction m as [|m IH]; intros d fuel HS MX DM F.
  - assert (G : (Z.of_nat (d + 1) <=? s)%Z = false) by (apply Z.leb_gt; lia). destruct fuel; cbn [write_point seq map]; rewrite G; do 3 f_equal; lia.
  - destruct fuel as [|fuel]; [lia|]. cbn [write_point]. assert (G : (Z.of_nat (d + 1) <=? s)%Z = true) by (apply Z.leb_le; lia). rewrite G.
    replace ((Z.of_nat (d + 1) - 1) mod UINT_MOD)%Z with (Z.of_nat d) by (rewrite Z.mod_small; lia).
    rewrite !vget_map by lia. replace ((Z.of_nat (d + 1) + 1) mod UINT_MOD)%Z with (Z.of_nat (Datatypes.S d + 1)) by (rewrite Z.mod_small; lia).
    replace (Datatypes.S (u + d)) with (u + Datatypes.S d)%nat by lia. rewrite IH by lia. reflexivity.
Qed.
Lemma write_points_ok : forall n s N, Z.of_nat n = s -> (s + 1 < UINT_MOD)%Z -> (N + 1 < UINT_MOD)%Z -> forall m i fuel, (Z.of_nat (i + m) = N)%Z ->
  (m + n <= fuel)%nat ->
  write_points fuel E N s (Z.of_nat (i + 1)) (i * n) (i * n) =
  Some (Ok (flat_map (fun j => map (line_at (Z.of_nat (j + 1)) (j * n) (j * n)) (seq 0 n)) (seq i m))).
Proof.
  intros n s N HS MS MN. induction m as [|m IH]; intros i fuel HI F.
  - assert (G : (Z.of_nat (i + 1) <=? N)%Z = false) by (apply Z.leb_gt; lia). destruct fuel; cbn [write_points seq flat_map]; now rewrite G.
  - destruct fuel as [|fuel]; [lia|]. cbn [write_points]. assert (G : (Z.of_nat (i + 1) <=? N)%Z = true) by (apply Z.leb_le; lia). rewrite G.
    cbn zeta. replace (Z.to_nat s) with n by lia.
    pose proof (write_point_ok n (i * n) (Z.of_nat (i + 1)) s (i * n) n 0 (Datatypes.S fuel) HS MS ltac:(lia) ltac:(lia)) as W.
    rewrite Nat.add_0_r in W. cbn [Nat.add] in W. change (Z.of_nat 1) with 1%Z in W. rewrite W.
    replace ((Z.of_nat (i + 1) + 1) mod UINT_MOD)%Z with (Z.of_nat (Datatypes.S i + 1)) by (rewrite Z.mod_small; lia).
    replace (i * n + n)%nat with (Datatypes.S i * n)%nat by lia. rewrite IH by lia. reflexivity.
Qed.
Lemma table_ok : forall n m i, let lines := flat_map (fun j => map (line_at (Z.of_nat (j + 1)) (j * n) (j * n)) (seq 0 n)) (seq i m) in
  length lines = (m * n)%nat /\ forall j d, (j < m)%nat -> (d < n)%nat -> nth_error lines (j * n + d) = Some (line_of E n (i + j) d).
Proof.
  intros n. induction m as [|m IH]; intros i lines; [split; [reflexivity|intros; lia]|].
  unfold lines. cbn [seq flat_map]. destruct (IH (Datatypes.S i)) as [L H]. split.
  - rewrite app_length, L, map_length, seq_length. lia.
  - intros [|j] d J D.
    + cbn [Nat.mul Nat.add]. rewrite nth_error_app1 by (rewrite map_length, seq_length; exact D).
      rewrite nth_error_map, (nth_error_nth' (seq 0 n) 0%nat) by (rewrite seq_length; exact D). rewrite seq_nth by exact D. cbn [option_map Nat.add].
      rewrite Nat.add_0_r. reflexivity.
    + rewrite nth_error_app2 by (rewrite map_length, seq_length; lia). rewrite map_length, seq_length.
      replace (Datatypes.S j * n + d - n)%nat with (j * n + d)%nat by lia. rewrite H by lia. do 2 f_equal. lia.
Qed.
End File.

(** For every number of points and every dimension below the greatest unsigned int, the
    program writes the whole table and ends. *)
Theorem C116_table : forall T (num : Num T) N s engines (E : Engines T) more fuel,
  (1 <= N < UINT_MAX)%Z -> (1 <= s < UINT_MAX)%Z -> engines s = Some E -> (Z.to_nat N + Z.to_nat s <= fuel)%nat ->
  exists lines, export_main fuel (Number N :: Number s :: more) false true engines = Some (Written lines) /\
    full_table E (Z.to_nat N) (Z.to_nat s) lines.
Proof.
  intros T num N s engines E more fuel HN HS EN F. unfold UINT_MAX, UINT_MOD in *. unfold export_main.
  destruct fuel as [|fuel]; [lia|]. cbn [ask extract iFailed iRest].
  destruct (Z.leb_spec N 0); [lia|]. destruct (Z.leb_spec s 0); [lia|]. cbn [orb negb]. rewrite EN.
  pose proof (write_points_ok E (Z.to_nat s) s N ltac:(lia) ltac:(unfold UINT_MOD; lia) ltac:(unfold UINT_MOD; lia) (Z.to_nat N) 0 (Datatypes.S fuel) ltac:(lia) ltac:(lia)) as W.
  cbn [Nat.mul Nat.add] in W. change (Z.of_nat 1) with 1%Z in W. rewrite W. eexists. split; [reflexivity|]. apply table_ok.
Qed.
Print Assumptions C116_table.

Lemma write_point_runs : forall T (num : Num T) (E : Engines T) n q i s, Z.of_nat n = s -> (s + 1 < UINT_MOD)%Z -> forall fuel d u, (d <= n)%nat ->
  let r := write_point fuel E (map (fun k => nofZ (eSobol E k)) (seq q n)) (map (eFaure E) (seq q n)) i s (Z.of_nat (d + 1)) u in
  r = None \/ exists lines u', r = Some (Ok (lines, u')).
Proof.
  intros T num E n q i s HS MS. induction fuel as [|fuel IH]; intros d u D; cbn [write_point]; destruct (Z.leb_spec (Z.of_nat (d + 1)) s) as [L|L]; eauto.
  replace ((Z.of_nat (d + 1) - 1) mod UINT_MOD)%Z with (Z.of_nat d) by (rewrite Z.mod_small; lia). rewrite !vget_map by lia.
  replace ((Z.of_nat (d + 1) + 1) mod UINT_MOD)%Z with (Z.of_nat (Datatypes.S d + 1)) by (rewrite Z.mod_small; lia).
  destruct (IH (Datatypes.S d) (Datatypes.S u) ltac:(lia)) as [-> |(ls & u' & ->)]; eauto.
Qed.
Lemma mod_range : forall z, (0 <= z mod UINT_MOD < UINT_MOD)%Z.
Proof. intros z. apply Z.mod_pos_bound. reflexivity. Qed.
Lemma write_points_endless : forall T (num : Num T) (E : Engines T) s, (0 <= s < UINT_MAX)%Z -> forall fuel i q u, (i < UINT_MOD)%Z ->
  write_points fuel E UINT_MAX s i q u = None.
Proof.
  intros T num E s HS. induction fuel as [|fuel IH]; intros i q u HI; cbn [write_points];
    (destruct (Z.leb_spec i UINT_MAX) as [L|L]; [|unfold UINT_MAX, UINT_MOD in *; lia]); [reflexivity|].
  cbn zeta.
  destruct (write_point_runs T num E (Z.to_nat s) q i s ltac:(lia) ltac:(unfold UINT_MAX, UINT_MOD in *; lia) (Datatypes.S fuel) 0 u ltac:(lia)) as [W|(ls & u' & W)];
    cbn [Nat.add] in W; change (Z.of_nat 1) with 1%Z in W; rewrite W; [reflexivity|]. rewrite IH; [reflexivity|]. apply mod_range.
Qed.

(** It does not end when the number of points is the greatest unsigned int (which the
    extraction also makes of the input "-1"): the counter wraps to 0 instead of passing N. *)
Theorem C116_refuted : exists N, (1 <= N <= UINT_MAX)%Z /\ forall T (num : Num T) s engines (E : Engines T) more fuel,
  (1 <= s < UINT_MAX)%Z -> engines s = Some E ->
  export_main fuel (Number N :: Number s :: more) false true engines = None.
Proof.
  exists UINT_MAX. split; [unfold UINT_MAX; lia|]. intros T num s engines E more fuel HS EN. unfold export_main.
  destruct fuel as [|fuel]; [reflexivity|]. cbn [ask extract iFailed iRest]. change (UINT_MAX <=? 0)%Z with false.
  destruct (Z.leb_spec s 0); [lia|]. cbn [orb negb]. rewrite EN. rewrite write_points_endless; [reflexivity|lia|unfold UINT_MOD; lia].
Qed.
Print Assumptions C116_refuted.

Lemma vget_none : forall A (v : list A) n, (length v <= n)%nat -> vget v (Z.of_nat n) = UB.
Proof.
  intros A v n L. unfold vget. destruct (Z.ltb_spec (Z.of_nat n) 0); [lia|]. rewrite Nat2Z.id. apply nth_error_None in L. now rewrite L.
Qed.
Lemma write_point_overrun : forall T (num : Num T) (E : Engines T) n q i, Z.of_nat n = UINT_MAX -> forall m d u, (d + m = n)%nat ->
  write_point (m + 1) E (map (fun k => nofZ (eSobol E k)) (seq q n)) (map (eFaure E) (seq q n)) i UINT_MAX (Z.of_nat (d + 1) mod UINT_MOD)%Z u = Some UB.
Proof.
  intros T num E n q i HN. induction m as [|m IH]; intros d u D; cbn [Nat.add write_point].
  - replace (Z.of_nat (d + 1) mod UINT_MOD)%Z with 0%Z by (replace (Z.of_nat (d + 1)) with UINT_MOD by (unfold UINT_MAX, UINT_MOD in *; lia); reflexivity).
    change (0 <=? UINT_MAX)%Z with true. change ((0 - 1) mod UINT_MOD)%Z with UINT_MAX.
    rewrite <- HN. rewrite (vget_none _ _ n) by (rewrite map_length, seq_length; lia). reflexivity.
  - assert (SM : (Z.of_nat (d + 1) mod UINT_MOD)%Z = Z.of_nat (d + 1)) by (apply Z.mod_small; unfold UINT_MAX, UINT_MOD in *; lia). rewrite SM.
    assert (G : (Z.of_nat (d + 1) <=? UINT_MAX)%Z = true) by (apply Z.leb_le; lia). rewrite G.
    replace ((Z.of_nat (d + 1) - 1) mod UINT_MOD)%Z with (Z.of_nat d) by (rewrite Z.mod_small; unfold UINT_MAX, UINT_MOD in *; lia).
    rewrite !vget_map by lia. replace (Z.of_nat (d + 1) + 1)%Z with (Z.of_nat (Datatypes.S d + 1)) by lia. rewrite IH by lia. reflexivity.
Qed.

(** With the greatest unsigned int as dimension, an engine that supports it and enough
    memory, the inner counter wraps to 0 and the program reads behind the vector. *)
Theorem C116_overrun_refuted : exists s, (1 <= s <= UINT_MAX)%Z /\ forall T (num : Num T) N engines (E : Engines T) more,
  (1 <= N <= UINT_MAX)%Z -> engines s = Some E ->
  exists fuel, export_main fuel (Number N :: Number s :: more) false true engines = Some Undefined.
Proof.
  exists UINT_MAX. split; [unfold UINT_MAX; lia|]. intros T num N engines E more HN EN.
  destruct (Z_of_nat_complete UINT_MAX ltac:(discriminate)) as [n ZN]. symmetry in ZN.
  assert (HS : Z.to_nat UINT_MAX = n) by (rewrite <- ZN; apply Nat2Z.id).
  exists (n + 1)%nat. unfold export_main. replace (n + 1)%nat with (Datatypes.S n) by lia.
  cbn [ask extract iFailed iRest]. change (UINT_MAX <=? 0)%Z with false.
  destruct (Z.leb_spec N 0); [lia|]. cbn [orb negb]. rewrite EN. cbn [write_points]. destruct (Z.leb_spec 1 N); [|lia]. cbn zeta. rewrite HS.
  replace (Datatypes.S n) with (n + 1)%nat by lia.
  pose proof (write_point_overrun T num E n 0 1 ZN n 0 0 ltac:(lia)) as W. change (Z.of_nat (0 + 1) mod UINT_MOD)%Z with 1%Z in W. rewrite W. reflexivity.
Qed.
Print Assumptions C116_overrun_refuted.

(** Two points in dimension two: four lines. *)
Example C116_ex : let E := mkEngines (fun k => Z.of_nat k) 10 (fun k => INR k) 1 (fun k => INR k) in
  exists lines, export_main 4 [Number 2; Number 2] false true (fun _ => Some E) = Some (Written lines) /\
    map (fun '(i, d, _, _, _) => (i, d)) lines = [(1, 1); (1, 2); (2, 1); (2, 2)]%Z /\
    map (fun '(_, _, x, _, _) => x) lines = [0 / 10; 1 / 10; 2 / 10; 3 / 10].
Proof. intros E. eexists. split; [reflexivity|]. split; reflexivity. Qed.

(** ** C117: the prompt *)
(** The first pair of positive numbers among the numbers typed two by two. *)
Inductive first_pair : list Z -> Z -> Z -> Prop :=
| fp_here : forall N s r, (0 < N)%Z -> (0 < s)%Z -> first_pair (N :: s :: r) N s
| fp_next : forall a b r N s, (0 <= a)%Z -> (0 <= b)%Z -> a = 0%Z \/ b = 0%Z -> first_pair r N s -> first_pair (a :: b :: r) N s.

Theorem C117_partial : forall zs N s more N0 s0, first_pair zs N s ->
  exists rounds, forall fuel, (rounds <= fuel)%nat -> ask fuel N0 s0 (mkInput (map Number zs ++ more) false) = Some (N, s).
Proof.
  intros zs N s more N0 s0 F. revert N0 s0. induction F as [N s r PN PS|a b r N s A B Z F IH]; intros N0 s0.
  - exists 1%nat. intros [|fuel] L; [lia|]. cbn [map app ask extract iFailed iRest].
    destruct (Z.leb_spec N 0); [lia|]. destruct (Z.leb_spec s 0); [lia|]. reflexivity.
  - destruct (IH a b) as [m H]. exists (Datatypes.S m). intros [|fuel] L; [lia|]. cbn [map app ask extract iFailed iRest].
    assert (Q : ((a <=? 0) || (b <=? 0))%Z%bool = true) by (destruct (Z.leb_spec a 0), (Z.leb_spec b 0); auto; lia).
    rewrite Q. apply H. lia.
Qed.
Print Assumptions C117_partial.

(** Input that is not a number, or the end of the input, before a positive pair: the stream
    stays failed, no extraction changes anything any more, and the program prompts forever.
    A number that does not fit, on the other hand, is replaced by the greatest one and
    accepted, together with a value left from an earlier round. *)
Theorem C117_stuck : forall fuel N s r, (N <= 0 \/ s <= 0)%Z -> ask fuel N s (mkInput r true) = None.
Proof.
  induction fuel as [|fuel IH]; intros N s r H; [reflexivity|]. cbn [ask extract iFailed].
  assert (Q : ((N <=? 0) || (s <=? 0))%Z%bool = true) by (destruct (Z.leb_spec N 0), (Z.leb_spec s 0); auto; lia). rewrite Q. now apply IH.
Qed.
Print Assumptions C117_stuck.
Theorem C117_refuted :
  (forall T (num : Num T) fuel more d o (engines : Z -> option (Engines T)), export_main fuel (NoNumber 0 :: more) d o engines = None) /\
  (forall T (num : Num T) fuel d o (engines : Z -> option (Engines T)), export_main fuel [] d o engines = None) /\
  (forall T (num : Num T) fuel more d o N (engines : Z -> option (Engines T)), export_main fuel (Number N :: NoNumber 0 :: more) d o engines = None) /\
  (forall more, ask 2 0 0 (mkInput (Number 0 :: Number 7 :: NoNumber UINT_MAX :: more) false) = Some (UINT_MAX, 7%Z)).
Proof.
  split; [|split; [|split]].
  - intros T num fuel more d o engines. unfold export_main. destruct fuel as [|fuel]; [reflexivity|]. cbn. rewrite C117_stuck by lia. reflexivity.
  - intros T num fuel d o engines. unfold export_main. destruct fuel as [|fuel]; [reflexivity|]. cbn. rewrite C117_stuck by lia. reflexivity.
  - intros T num fuel more d o N engines. unfold export_main. destruct fuel as [|fuel]; [reflexivity|]. cbn [ask extract iFailed iRest].
    change (0 <=? 0)%Z with true. rewrite orb_true_r, C117_stuck by lia. reflexivity.
  - reflexivity.
Qed.
Print Assumptions C117_refuted.
Example C117_ex : first_pair [0; 3; 5; 0; 8; 2; 9]%Z 8 2.
Proof. apply fp_next; [lia|lia|auto|]. apply fp_next; [lia|lia|auto|]. now constructor. Qed.

(** ** C118: the normalised Sobol numbers *)
Definition SOBOL_MAX : Z := 18446744073709551615. (* 2^64 - 1 *)

Lemma fl_dyadic : forall m e, (0 <= m <= 2 ^ 53)%Z -> (-1074 <= e <= 100)%Z -> fl (IZR m * bpow radix2 e) = IZR m * bpow radix2 e.
Proof.
  intros m e M X.
  assert (G : generic_format radix2 (FLT_exp (-1074) 53) (IZR m * bpow radix2 e)).
  { destruct (Z.eq_dec m (2 ^ 53)) as [-> |NE].
    - change (2 ^ 53)%Z with (Zpower radix2 53). rewrite IZR_Zpower by lia. rewrite <- bpow_plus. apply generic_format_bpow. unfold FLT_exp. lia.
    - apply generic_format_FLT. exists (Float radix2 m e); [reflexivity| |cbn; lia]. cbn [Fnum]. rewrite Z.abs_eq by lia. change (Zpower radix2 53) with (2 ^ 53)%Z. lia. }
  unfold fl, rnd. rewrite round_generic by (auto with typeclass_instances). apply clamp_id. unfold INF.
  assert (B : 0 < bpow radix2 e <= bpow radix2 100) by (split; [apply bpow_gt_0|apply bpow_le; lia]).
  assert (A : 0 <= IZR m <= bpow radix2 53) by (rewrite <- IZR_Zpower by lia; split; apply IZR_le; [lia|change (Zpower radix2 53) with (2 ^ 53)%Z; lia]).
  assert (U : bpow radix2 53 * bpow radix2 100 <= bpow radix2 1024) by (rewrite <- bpow_plus; apply bpow_le; lia).
  pose proof (bpow_gt_0 radix2 1024). nra.
Qed.
Lemma fl_top : forall z, (18446744073709550592 <= z <= SOBOL_MAX)%Z -> fl (IZR z) = bpow radix2 64.
Proof.
  intros z Z.
  assert (E : forall a, B2SF (b64_ofZ a) = B2SF (b64_ofZ (2 ^ 64)) -> fl (IZR a) = bpow radix2 64).
  { intros a A. apply B2SF_inj in A. destruct (val_ofZ a) as [_ <-]. rewrite A. destruct (val_ofZ (2 ^ 64)) as [_ ->].
    change (2 ^ 64)%Z with (Zpower radix2 64). rewrite IZR_Zpower by lia. pose proof (fl_dyadic 1 64 ltac:(lia) ltac:(lia)) as D. now rewrite Rmult_1_l in D. }
  apply Rle_antisym.
  - rewrite <- (E SOBOL_MAX) by (vm_compute; reflexivity). apply fl_le, IZR_le. lia.
  - rewrite <- (E 18446744073709550592%Z) by (vm_compute; reflexivity). apply fl_le, IZR_le. lia.
Qed.
Lemma fl_below : forall z, (z < 18446744073709550592)%Z -> fl (IZR z) <= IZR (2 ^ 53 - 1) * bpow radix2 11.
Proof.
  intros z Z. apply Rle_trans with (fl (IZR 18446744073709550591)); [apply fl_le, IZR_le; lia|].
  assert (E : b64_ofZ 18446744073709550591 = b64_ofZ ((2 ^ 53 - 1) * 2 ^ 11)) by (apply B2SF_inj; vm_compute; reflexivity).
  destruct (val_ofZ 18446744073709550591) as [_ <-]. rewrite E. destruct (val_ofZ ((2 ^ 53 - 1) * 2 ^ 11)) as [_ ->].
  rewrite mult_IZR. change (2 ^ 11)%Z with (Zpower radix2 11). rewrite (IZR_Zpower radix2 11) by lia. rewrite fl_dyadic by lia. lra.
Qed.
Lemma sobol_value : forall z, (0 <= z <= SOBOL_MAX)%Z -> finite (b64_div (b64_ofZ z) (b64_ofZ SOBOL_MAX)) /\
  val (b64_div (b64_ofZ z) (b64_ofZ SOBOL_MAX)) = fl (fl (IZR z) * bpow radix2 (-64)) /\ 0 <= fl (IZR z) <= bpow radix2 64.
Proof.
  intros z Z. assert (M : fl (IZR SOBOL_MAX) = bpow radix2 64) by (apply fl_top; unfold SOBOL_MAX; lia).
  assert (I : bpow radix2 64 < INF) by (apply bpow_lt; lia). pose proof (bpow_gt_0 radix2 64) as P.
  assert (B : 0 <= fl (IZR z) <= bpow radix2 64) by (split; [apply fl_nonneg, IZR_le; lia|rewrite <- M; apply fl_le, IZR_le; lia]).
  assert (F : forall a, (0 <= a <= SOBOL_MAX)%Z -> finite (b64_ofZ a)).
  { intros a A. destruct (val_ofZ a) as [N V]. assert (fl (IZR a) <= bpow radix2 64) by (rewrite <- M; apply fl_le, IZR_le; lia).
    assert (0 <= fl (IZR a)) by (apply fl_nonneg, IZR_le; lia). destruct (notnan_cases _ N) as [Q|[Q|Q]]; [exact Q| |]; rewrite Q in V; [rewrite val_ninf in V|rewrite val_pinf in V]; lra. }
  assert (NZ : val (b64_ofZ SOBOL_MAX) <> 0) by (destruct (val_ofZ SOBOL_MAX) as [_ ->]; rewrite M; lra).
  destruct (val_div _ _ (F z Z) (F SOBOL_MAX ltac:(unfold SOBOL_MAX; lia)) NZ) as [N V].
  destruct (val_ofZ z) as [_ VZ]. destruct (val_ofZ SOBOL_MAX) as [_ VM]. rewrite VZ, VM, M in V.
  unfold Rdiv in V. rewrite <- bpow_opp in V. change (- (64))%Z with (-64)%Z in V.
  split; [|split; [exact V|exact B]].
  assert (U : fl (fl (IZR z) * bpow radix2 (-64)) <= 1).
  { rewrite <- fl_1. apply fl_le. replace 1 with (bpow radix2 64 * bpow radix2 (-64)) by (rewrite <- bpow_plus; reflexivity).
    apply Rmult_le_compat_r; [apply bpow_ge_0|apply B]. }
  assert (L : 0 <= fl (fl (IZR z) * bpow radix2 (-64))) by (apply fl_nonneg, Rmult_le_pos; [apply B|apply bpow_ge_0]).
  assert (1 < INF) by (change 1 with (bpow radix2 0); apply bpow_lt; lia).
  destruct (notnan_cases _ N) as [Q|[Q|Q]]; [exact Q| |]; rewrite Q in V; [rewrite val_ninf in V|rewrite val_pinf in V]; lra.
Qed.

(** The number in the column "Sobol" of a line. *)
Definition sobol_column (lines : list (Line b64)) (k : nat) (x : b64) : Prop :=
  exists i d f u, nth_error lines k = Some (i, d, x, f, u).
Section Column.
Variables fexp flog : b64 -> b64.
Local Notation num := (B64 fexp flog).
Variables (E : Engines b64) (n s : nat) (lines : list (Line b64)).
Hypothesis FT : @full_table b64 num E n s lines.
Hypothesis MX : eSobolMax E = SOBOL_MAX.
Lemma column_at : forall k x, sobol_column lines k x -> (k < n * s)%nat /\ x = b64_div (b64_ofZ (eSobol E k)) (b64_ofZ SOBOL_MAX).
Proof.
  intros k x (i & d & f & u & H). destruct FT as [L G].
  assert (K : (k < n * s)%nat) by (rewrite <- L; apply nth_error_Some; rewrite H; discriminate). split; [exact K|].
  assert (SP : s <> 0%nat) by (intros ->; lia).
  pose proof (Nat.div_mod k s SP) as DM. pose proof (Nat.mod_upper_bound k s SP) as MB.
  assert (Q : (k / s < n)%nat) by (apply Nat.div_lt_upper_bound; lia).
  specialize (G (k / s)%nat (k mod s)%nat Q MB). replace (k / s * s + k mod s)%nat with k in G by lia. rewrite H in G.
  unfold line_of in G. replace (k / s * s + k mod s)%nat with k in G by lia. injection G as _ _ G _ _. rewrite G, MX. reflexivity.
Qed.
End Column.

(** The program's lines when the Sobol engine returns 64-bit numbers: every normalised number
    is finite and lies between 0 and 1; it is 1 exactly for the 1024 greatest 64-bit numbers;
    it is raw / 2^64 without any rounding when the engine's number is a multiple of 2^11; and
    the column keeps the order of the engine's numbers. *)
Theorem C118_normalised : forall fexp flog N s engines (E : Engines b64) more fuel,
  (1 <= N < UINT_MAX)%Z -> (1 <= s < UINT_MAX)%Z -> engines s = Some E -> (Z.to_nat N + Z.to_nat s <= fuel)%nat ->
  eSobolMax E = SOBOL_MAX -> (forall k, (0 <= eSobol E k <= SOBOL_MAX)%Z) ->
  exists lines, @export_main b64 (B64 fexp flog) fuel (Number N :: Number s :: more) false true engines = Some (Written lines) /\
    (forall k, (k < Z.to_nat N * Z.to_nat s)%nat -> exists x, sobol_column lines k x) /\
    (forall k x, sobol_column lines k x ->
       finite x /\ 0 <= val x <= 1 /\ (val x = 1 <-> (2 ^ 64 - 1024 <= eSobol E k)%Z) /\
       ((2 ^ 11 | eSobol E k)%Z -> val x = IZR (eSobol E k) / IZR (2 ^ 64))) /\
    (forall k x k' x', sobol_column lines k x -> sobol_column lines k' x' -> (eSobol E k <= eSobol E k')%Z -> val x <= val x').
Proof.
  intros fexp flog N s engines E more fuel HN HS EN F MX R.
  destruct (C116_table b64 (B64 fexp flog) N s engines E more fuel HN HS EN F) as (lines & RUN & FT).
  exists lines. split; [exact RUN|]. split; [|split].
  - intros k K. destruct FT as [L _]. rewrite <- L in K. apply nth_error_Some in K.
    destruct (nth_error lines k) as [[[[[i d] x] f] u]|] eqn:Q; [|congruence]. exists x, i, d, f, u. exact Q.
  - intros k x C. destruct (column_at fexp flog E _ _ lines FT MX k x C) as [_ ->]. specialize (R k). set (z := eSobol E k) in *. clearbody z.
    destruct (sobol_value z R) as (FI & V & B). rewrite V. pose proof (bpow_gt_0 radix2 (-64)) as P.
    assert (ONE : bpow radix2 64 * bpow radix2 (-64) = 1) by (rewrite <- bpow_plus; reflexivity).
    split; [exact FI|]. split; [|split; [split|]].
    + split; [apply fl_nonneg, Rmult_le_pos; lra|]. rewrite <- fl_1. apply fl_le. nra.
    + intros V1. destruct (Z.le_gt_cases (2 ^ 64 - 1024) z) as [G|G]; [exact G|]. exfalso.
      assert (X : fl (fl (IZR z) * bpow radix2 (-64)) <= IZR (2 ^ 53 - 1) * bpow radix2 (-53)).
      { rewrite <- (fl_dyadic (2 ^ 53 - 1) (-53)) by lia. apply fl_le. change (-53)%Z with (11 + -64)%Z. rewrite bpow_plus, <- Rmult_assoc.
        apply Rmult_le_compat_r; [lra|]. apply fl_below. lia. }
      assert (Y : IZR (2 ^ 53 - 1) * bpow radix2 (-53) < 1).
      { replace 1 with (IZR (2 ^ 53) * bpow radix2 (-53)) by (change (2 ^ 53)%Z with (Zpower radix2 53); rewrite IZR_Zpower by lia; rewrite <- bpow_plus; reflexivity).
        apply Rmult_lt_compat_r; [apply bpow_gt_0|]. apply IZR_lt. lia. }
      lra.
    + intros G. rewrite fl_top by (unfold SOBOL_MAX in *; lia). rewrite ONE. apply fl_1.
    + intros [m M]. assert (MB : (0 <= m < 2 ^ 53)%Z) by (unfold SOBOL_MAX in R; lia).
      assert (Z1 : IZR z = IZR m * bpow radix2 11) by (rewrite M, mult_IZR; change (2 ^ 11)%Z with (Zpower radix2 11); rewrite (IZR_Zpower radix2 11) by lia; reflexivity).
      rewrite Z1 at 1. rewrite fl_dyadic by lia. rewrite Rmult_assoc, <- bpow_plus. rewrite fl_dyadic by lia. rewrite Z1.
      change (2 ^ 64)%Z with (Zpower radix2 64). rewrite (IZR_Zpower radix2 64) by lia. unfold Rdiv. rewrite <- bpow_opp, Rmult_assoc, <- bpow_plus. reflexivity.
  - intros k x k' x' C C' LE. destruct (column_at fexp flog E _ _ lines FT MX k x C) as [_ ->]. destruct (column_at fexp flog E _ _ lines FT MX k' x' C') as [_ ->].
    destruct (sobol_value _ (R k)) as (_ & -> & _). destruct (sobol_value _ (R k')) as (_ & -> & _).
    apply fl_le, Rmult_le_compat_r; [apply bpow_ge_0|]. apply fl_le, IZR_le, LE.
Qed.
Print Assumptions C118_normalised.

(** So the comment "Normalize ... to [0, 1)" is not true of every number the engine's type
    allows: the greatest one becomes 1, and so does one below the engine's maximum. *)
Theorem C118_refuted : exists z, (0 <= z < SOBOL_MAX)%Z /\ forall fexp flog,
  let E := @mkEngines b64 (fun _ => z) SOBOL_MAX (fun _ => b64_ofZ 0) (b64_ofZ 1) (fun _ => b64_ofZ 0) in
  exists lines x, @export_main b64 (B64 fexp flog) 2 [Number 1; Number 1] false true (fun _ => Some E) = Some (Written lines) /\
    sobol_column lines 0 x /\ val x = 1.
Proof.
  exists (2 ^ 64 - 1024)%Z. split; [unfold SOBOL_MAX; lia|]. intros fexp flog E.
  destruct (C118_normalised fexp flog 1 1 (fun _ => Some E) E [] 2) as (lines & RUN & EX & V & _); try (unfold UINT_MAX; lia); try reflexivity.
  - intros k. cbn [eSobol E]. unfold SOBOL_MAX. lia.
  - destruct (EX 0%nat) as [x C]; [apply Nat.lt_0_1|]. exists lines, x. split; [exact RUN|]. split; [exact C|]. apply (V 0%nat x C). cbn [eSobol E]. lia.
Qed.
Print Assumptions C118_refuted.
