(** Properties C55-C58: interpolation. *)
From Coq Require Import List ZArith Bool Lia Reals Lra.
From Flocq Require Import Core BinarySingleNaN Plus_error.
From Verif Require Import M_Num M_Outcome M_Numeric S_Double S_Numeric L_B64 L_Numeric.
Import ListNotations.
Local Open Scope R_scope.

Definition ident (x : R) : R := x.

(** The value on the line through (a, b) and (a', b'). *)
Definition seg (a b a' b' x : R) : R := b + (x - a) * (b' - b) / (a' - a).

Lemma seg_left : forall a b a' b', seg a b a' b' a = b.
Proof. intros. unfold seg, Rdiv. ring. Qed.
Lemma seg_right : forall a b a' b', a < a' -> seg a b a' b' a' = b'.
Proof. intros. unfold seg. field. lra. Qed.

Lemma seg_bounds : forall a b a' b' x, a < a' -> a <= x <= a' ->
  Rmin b b' <= seg a b a' b' x <= Rmax b b'.
Proof.
  intros a b a' b' x L [H1 H2].
  set (t := (x - a) / (a' - a)).
  assert (T : 0 <= t <= 1).
  { unfold t. split; [apply Rmult_le_pos; [lra|apply Rlt_le, Rinv_0_lt_compat; lra]|]. apply Rmult_le_reg_r with (a' - a); [lra|].
    unfold Rdiv. rewrite Rmult_assoc, Rinv_l by lra. lra. }
  replace (seg a b a' b' x) with (b + t * (b' - b)) by (unfold seg, t; field; lra).
  unfold Rmin, Rmax. destruct (Rle_dec b b'); nra.
Qed.

Lemma line_node : forall xs ys k a b a' b' x, node xs ys k a b -> node xs ys (Datatypes.S k) a' b' ->
  line xs ys x (Z.of_nat k) = Ok (seg a b a' b' x).
Proof.
  intros xs ys k a b a' b' x [A B] [A' B']. unfold line.
  replace (Z.of_nat k + 1)%Z with (Z.of_nat (Datatypes.S k)) by lia.
  rewrite !vget_nat, A, B, A', B'. reflexivity.
Qed.

Lemma node_exists : forall (xs ys : list R) i, length ys = length xs -> (i < length xs)%nat ->
  exists a b, node xs ys i a b.
Proof.
  intros xs ys i L H. destruct (nth_some _ xs i H) as (a & A). destruct (nth_some _ ys i ltac:(lia)) as (b & B).
  now exists a, b.
Qed.
Lemma node_fun : forall (xs ys : list R) i a b a' b', node xs ys i a b -> node xs ys i a' b' -> a = a' /\ b = b'.
Proof. intros xs ys i a b a' b' [A B] [A' B']. rewrite A in A'. rewrite B in B'. split; congruence. Qed.

Lemma front_node : forall (xs ys : list R) a b, node xs ys 0 a b -> vfront ys = Ok b.
Proof. intros xs [|y ys] a b [A B]; cbn in *; congruence. Qed.
Lemma back_node : forall (xs ys : list R) a b, length ys = length xs -> node xs ys (length xs - 1) a b -> vback ys = Ok b.
Proof.
  intros xs ys a b L [A B]. destruct (vback_nth _ ys) as (b' & B' & E).
  - intros ->. cbn in B. destruct (length xs - 1)%nat; discriminate.
  - rewrite L in B'. congruence.
Qed.

Lemma increasing_inj : forall xs i j a, increasing ident xs -> nth_error xs i = Some a -> nth_error xs j = Some a -> i = j.
Proof.
  intros xs i j a INC A B. destruct (Nat.lt_total i j) as [L|[E|L]]; [|easy|].
  - pose proof (INC _ _ _ _ L A B). unfold ident in *. lra.
  - pose proof (INC _ _ _ _ L B A). unfold ident in *. lra.
Qed.

(** Two intervals that contain a point are the same or share it as an end. *)
Lemma same_interval : forall xs ys x i k a b a' b' c d c' d', increasing ident xs ->
  node xs ys i a b -> node xs ys (Datatypes.S i) a' b' -> a <= x <= a' ->
  node xs ys k c d -> node xs ys (Datatypes.S k) c' d' -> c <= x <= c' ->
  seg a b a' b' x = seg c d c' d' x.
Proof.
  intros xs ys x i k a b a' b' c d c' d' INC A A' H C C' H'.
  assert (LA : a < a') by (apply (INC i (Datatypes.S i)); [lia|apply A|apply A']).
  assert (LC : c < c') by (apply (INC k (Datatypes.S k)); [lia|apply C|apply C']).
  destruct (Nat.lt_total i k) as [L|[->|L]].
  - pose proof (increasing_le ident xs INC (Datatypes.S i) k a' c L (proj1 A') (proj1 C)) as E. unfold ident in E.
    assert (a' = x /\ c = x) as [-> ->] by lra.
    assert (Datatypes.S i = k) as <- by (eapply increasing_inj; [exact INC|apply A'|apply C]).
    rewrite seg_left, seg_right by easy. now apply (node_fun _ _ _ _ _ _ _ A' C).
  - destruct (node_fun _ _ _ _ _ _ _ A C) as [-> ->]. now destruct (node_fun _ _ _ _ _ _ _ A' C') as [-> ->].
  - pose proof (increasing_le ident xs INC (Datatypes.S k) i c' a L (proj1 C') (proj1 A)) as E. unfold ident in E.
    assert (c' = x /\ a = x) as [-> ->] by lra.
    assert (Datatypes.S k = i) as <- by (eapply increasing_inj; [exact INC|apply C'|apply A]).
    rewrite seg_left, seg_right by easy. symmetry. now apply (node_fun _ _ _ _ _ _ _ C' A).
Qed.

Lemma all_good : forall xs : list R, Forall (fun _ => True) xs.
Proof. intros. apply Forall_forall. auto. Qed.

Lemma locate : forall xs ys (x : R) k, length ys = length xs -> in_interval ident xs x k ->
  exists a b a' b', node xs ys k a b /\ node xs ys (Datatypes.S k) a' b' /\ a <= x <= a'.
Proof.
  intros xs ys x k L (a & a' & A & A' & H).
  destruct (nth_some _ ys k ltac:(apply nth_lt in A; lia)) as (b & B).
  destruct (nth_some _ ys (Datatypes.S k) ltac:(apply nth_lt in A'; lia)) as (b' & B').
  exists a, b, a', b'. repeat split; auto; apply H.
Qed.

(** The interpolant in terms of the nodes: both interpolations clamp; inside, linear
    interpolation uses an interval containing the point. *)
Lemma linear_char : forall xs ys x, xs <> [] -> length ys = length xs -> increasing ident xs ->
  exists y, linear_interpolate xs ys x = Ok y /\
    (forall a b, node xs ys 0 a b -> x <= a -> y = b) /\
    (forall a b, node xs ys (length xs - 1) a b -> a <= x -> y = b) /\
    (forall i a b a' b', node xs ys i a b -> node xs ys (Datatypes.S i) a' b' -> a <= x <= a' ->
       y = seg a b a' b' x).
Proof.
  intros xs ys x NE L INC.
  assert (N0 : (0 < length xs)%nat) by (destruct xs; [easy|cbn; lia]).
  destruct (node_exists xs ys 0 L N0) as (a0 & b0 & A0).
  destruct (node_exists xs ys (length xs - 1) L ltac:(lia)) as (an & bn & AN).
  assert (LN : a0 <= an).
  { pose proof (increasing_le ident xs INC 0 (length xs - 1) a0 an ltac:(lia) (proj1 A0) (proj1 AN)). easy. }
  destruct (clamp_cases ident (fun _ => True) ltac:(auto) xs (all_good xs) INC x I ys (linear_loop xs ys x (length xs - 1) 1) NE)
    as [(a & A & H & E)|[(a & b & A & B & H1 & H2 & E)|[IN E]]]; unfold ident in *;
    match type of E with _ = ?r => change (linear_interpolate xs ys x = r) in E end.
  - exists b0. rewrite E, (front_node _ _ _ _ A0). rewrite (proj1 A0) in A. injection A as <-.
    split; [easy|]. split; [|split].
    + intros a b N _. now apply (node_fun _ _ _ _ _ _ _ A0 N).
    + intros a b N Ha. destruct (node_fun _ _ _ _ _ _ _ AN N) as [-> ->].
      assert (a0 = a) as -> by lra. assert (0 = length xs - 1)%nat as E0 by (eapply increasing_inj; [exact INC|apply A0|apply N]).
      rewrite <- E0 in N. now apply (node_fun _ _ _ _ _ _ _ A0 N).
    + intros i a b a' b' N N' Hx. assert (a0 <= a).
      { pose proof (increasing_le ident xs INC 0 i a0 a ltac:(lia) (proj1 A0) (proj1 N)). easy. }
      assert (x = a /\ a0 = a) as [-> ->] by lra. rewrite seg_left.
      assert (0 = i)%nat as <- by (eapply increasing_inj; [exact INC|apply A0|apply N]).
      now apply (node_fun _ _ _ _ _ _ _ A0 N).
  - exists bn. rewrite E, (back_node _ _ _ _ L AN). rewrite (proj1 AN) in B. injection B as <-. rewrite (proj1 A0) in A. injection A as <-.
    split; [easy|]. split; [|split].
    + intros a b N Ha. destruct (node_fun _ _ _ _ _ _ _ A0 N) as [-> ->]. lra.
    + intros a b N _. now apply (node_fun _ _ _ _ _ _ _ AN N).
    + intros i a b a' b' N N' Hx. pose proof (nth_lt _ _ _ _ (proj1 N')) as LT'. assert (a' <= an).
      { pose proof (increasing_le ident xs INC (Datatypes.S i) (length xs - 1) a' an ltac:(lia) (proj1 N') (proj1 AN)). easy. }
      assert (x = a' /\ an = a') as [-> ->] by lra.
      rewrite seg_right by (apply (INC i (Datatypes.S i)); [lia|apply N|apply N']).
      assert (length xs - 1 = Datatypes.S i)%nat as EI by (eapply increasing_inj; [exact INC|apply AN|apply N']).
      rewrite EI in AN. now apply (node_fun _ _ _ _ _ _ _ AN N').
  - destruct (linear_inside ident (fun _ => True) ltac:(auto) xs (all_good xs) x I ys IN) as (k & K & EL).
    rewrite E, EL. destruct (locate xs ys x k L K) as (a & b & a' & b' & NA & NB & H).
    exists (seg a b a' b' x). split; [now apply line_node|].
    destruct IN as (a1 & b1 & A1 & B1 & H1). unfold ident in H1. rewrite (proj1 A0) in A1. injection A1 as <-.
    rewrite (proj1 AN) in B1. injection B1 as <-. split; [|split].
    + intros c d N Hc. destruct (node_fun _ _ _ _ _ _ _ A0 N) as [-> ->]. lra.
    + intros c d N Hc. destruct (node_fun _ _ _ _ _ _ _ AN N) as [-> ->]. lra.
    + intros i c d c' d' N N' Hx. eapply same_interval; eauto.
Qed.

(** ** C55 *)
Theorem C55_linear_interpolation : forall xs ys x,
  xs <> [] -> length ys = length xs -> increasing ident xs ->
  exists y, linear_interpolate xs ys x = Ok y /\
    (* node values at the nodes *)
    (forall i b, node xs ys i x b -> y = b) /\
    (* between the neighbouring values elsewhere *)
    (forall i a b a' b', node xs ys i a b -> node xs ys (i + 1) a' b' -> a <= x <= a' ->
       Rmin b b' <= y <= Rmax b b') /\
    (* the end values outside *)
    (forall a b, node xs ys 0 a b -> x <= a -> y = b) /\
    (forall a b, node xs ys (length xs - 1) a b -> a <= x -> y = b) /\
    (* exact on affine data *)
    (forall p q a b a' b', ys = map (fun t => p * t + q) xs ->
       node xs ys 0 a b -> node xs ys (length xs - 1) a' b' -> a <= x <= a' -> y = p * x + q).
Proof.
  intros xs ys x NE L INC. destruct (linear_char xs ys x NE L INC) as (y & E & F & B & S).
  exists y. split; [easy|].
  assert (NODE : forall i b, node xs ys i x b -> y = b).
  { intros i b N. pose proof (nth_lt _ _ _ _ (proj1 N)) as LI.
    destruct (Nat.eq_dec (Datatypes.S i) (length xs)) as [EQ|NQ].
    - apply (B x b); [|lra]. replace (length xs - 1)%nat with i by lia. easy.
    - destruct (node_exists xs ys (Datatypes.S i) L ltac:(lia)) as (a' & b' & N').
      assert (x < a') by (apply (INC i (Datatypes.S i)); [lia|apply N|apply N']).
      rewrite (S _ _ _ _ _ N N') by lra. apply seg_left. }
  split; [easy|]. split; [|split; [easy|split; [easy|]]].
  - intros i a b a' b' N N' H. rewrite Nat.add_1_r in N'. rewrite (S _ _ _ _ _ N N' H). apply seg_bounds; [|easy].
    apply (INC i (Datatypes.S i)); [lia|apply N|apply N'].
  - intros p q a b a' b' EY NA NB H.
    assert (AFF : forall i s t, node xs ys i s t -> t = p * s + q).
    { intros i s t [N1 N2]. rewrite EY in N2. rewrite nth_error_map, N1 in N2. cbn in N2. congruence. }
    destruct (Rle_lt_dec x a) as [Ha|Ha].
    + assert (x = a) as -> by lra. rewrite (NODE 0%nat b) by easy. now apply (AFF 0%nat).
    + destruct (Rle_lt_dec a' x) as [Hb|Hb].
      * assert (x = a') as -> by lra. rewrite (NODE (length xs - 1)%nat b') by easy. now apply (AFF (length xs - 1)%nat).
      * assert (IN : inside ident xs x) by (exists a, a'; split; [apply NA|split; [apply NB|split; easy]]).
        destruct (linear_inside ident (fun _ => True) ltac:(auto) xs (all_good xs) x I ys IN) as (k & K & _).
        destruct (locate xs ys x k L K) as (c & d & c' & d' & NC & ND & HC).
        rewrite (S _ _ _ _ _ NC ND HC), (AFF _ _ _ NC), (AFF _ _ _ ND).
        assert (c < c') by (apply (INC k (Datatypes.S k)); [lia|apply NC|apply ND]).
        unfold seg. field. lra.
Qed.
Print Assumptions C55_linear_interpolation.

Lemma LTb : forall x y : b64, notnan x -> notnan y -> nltb x y = Rlt_bool (val x) (val y).
Proof. exact ltb_val. Qed.
Lemma LEb : forall x y : b64, notnan x -> notnan y -> nleb x y = Rle_bool (val x) (val y).
Proof. exact leb_val. Qed.

Lemma line_defined : forall (xs ys : list b64) x k, length ys = length xs -> (Datatypes.S k < length xs)%nat ->
  exists y, line xs ys x (Z.of_nat k) = Ok y.
Proof.
  intros xs ys x k L H. unfold line. replace (Z.of_nat k + 1)%Z with (Z.of_nat (Datatypes.S k)) by lia.
  destruct (nth_some _ xs k ltac:(lia)) as (a & A). destruct (nth_some _ xs (Datatypes.S k) H) as (a' & A').
  destruct (nth_some _ ys k ltac:(lia)) as (b & B). destruct (nth_some _ ys (Datatypes.S k) ltac:(lia)) as (b' & B').
  rewrite !vget_nat, A, A', B, B'. cbn [bind]. eauto.
Qed.

Lemma nonempty_ends : forall (xs ys : list b64), xs <> [] -> length ys = length xs ->
  (exists y, vfront ys = Ok y) /\ (exists y, vback ys = Ok y).
Proof.
  intros xs ys NE L. assert (ys <> []) by (intros ->; destruct xs; [easy|discriminate]).
  split; [destruct ys; [easy|eexists; reflexivity]|]. destruct (vback_nth _ ys H) as (y & _ & E). eauto.
Qed.

Lemma linear_nan_loop : forall (xs ys : list b64) (x : b64), is_nan x = true -> forall n i,
  (0 <= i)%Z -> (Z.to_nat i + n <= length xs)%nat -> linear_loop xs ys x n i = Throw RuntimeError.
Proof.
  intros xs ys x N. induction n as [|n IH]; intros i P H; [easy|]. cbn [linear_loop].
  destruct (nth_some _ xs (Z.to_nat i) ltac:(lia)) as (y & Y). rewrite (vget_some _ _ _ _ P Y). cbn [bind].
  change (nltb x y) with (b64_ltb x y). rewrite ltb_nan_l by easy. apply IH; lia.
Qed.

(** In binary64, on a grid of increasing doubles: an answer for every number (infinities
    included), std::runtime_error for NaN, never undefined. *)
Theorem C55_throws_iff_nan : forall (xs ys : list b64) x,
  xs <> [] -> length ys = length xs -> Forall notnan xs -> increasing val xs ->
  (notnan x -> exists y, linear_interpolate xs ys x = Ok y) /\
  (is_nan x = true -> linear_interpolate xs ys x = Throw RuntimeError).
Proof.
  intros xs ys x NE L G INC. destruct (nonempty_ends xs ys NE L) as [F B]. split.
  - intros GX.
    destruct (clamp_cases val notnan LEb xs G INC x GX ys (linear_loop xs ys x (length xs - 1) 1) NE)
      as [(a & A & H & E)|[(a & b & A & B' & H1 & H2 & E)|[IN E]]];
      match type of E with _ = ?r => change (linear_interpolate xs ys x = r) in E end; rewrite E; auto.
    destruct (linear_inside val notnan LTb xs G x GX ys IN) as (k & (c & d & C & D & _) & ->).
    apply line_defined; [easy|]. eapply nth_lt; eauto.
  - intros N. unfold linear_interpolate. destruct (vback_nth _ xs NE) as (b & _ & EB).
    destruct xs as [|a xs]; [easy|]. cbn [vfront bind].
    change (nleb x a) with (b64_leb x a). rewrite leb_nan_l by easy. rewrite EB. cbn [bind].
    change (nleb b x) with (b64_leb b x). rewrite leb_nan_r by easy.
    apply linear_nan_loop; [easy|lia|]. cbn [length]. lia.
Qed.
Print Assumptions C55_throws_iff_nan.

(** A case: three nodes, queried at a node, inside, outside and with NaN. *)
Lemma increasing_cons : forall T (v : T -> R) a xs,
  increasing v xs -> Forall (fun x => v a < v x) xs -> increasing v (a :: xs).
Proof.
  intros T v a xs I F [|i] [|j] x y L A B; cbn in A, B; try lia.
  - injection A as <-. rewrite Forall_forall in F. apply F. eapply nth_error_In; eauto.
  - apply (I i j); auto. lia.
Qed.
Lemma increasing_nil : forall T (v : T -> R), increasing v [].
Proof. intros T v i j x y _ A. destruct i; discriminate. Qed.

Ltac inc := repeat (apply increasing_cons; [|repeat (apply Forall_cons || apply Forall_nil); unfold ident; try lra]); apply increasing_nil.

Example C55_ex : increasing ident [0; 1; 3] /\
  linear_interpolate [0; 1; 3] [5; 7; 3] 1 = Ok 7 /\
  linear_interpolate [0; 1; 3] [5; 7; 3] 2 = Ok 5 /\
  linear_interpolate [0; 1; 3] [5; 7; 3] 4 = Ok 3.
Proof.
  split; [inc|].
  assert (forall x y, increasing ident [0; 1; 3] -> (exists z, linear_interpolate [0; 1; 3] [5; 7; 3] x = Ok z /\ z = y) ->
    linear_interpolate [0; 1; 3] [5; 7; 3] x = Ok y) as K by (intros x y _ (z & E & <-); exact E).
  assert (I : increasing ident [0; 1; 3]) by inc.
  repeat split; apply K; auto;
    match goal with |- exists z, linear_interpolate _ _ ?x = _ /\ _ =>
      destruct (linear_char [0; 1; 3] [5; 7; 3] x ltac:(discriminate) eq_refl I) as (y & E & F & B & S) end;
    exists y; (split; [exact E|]).
  - rewrite (S 0%nat 0 5 1 7); [unfold seg; field| | |lra]; split; reflexivity.
  - rewrite (S 1%nat 1 7 3 3); [unfold seg; field| | |lra]; split; reflexivity.
  - apply (B 3 3); [split; reflexivity|lra].
Qed.

(** The node values are also exact in binary64, as long as no difference of neighbouring
    data overflows. *)
Lemma zero_mul : forall z y : b64, finite z -> val z = 0 -> finite y -> finite (b64_mul z y) /\ val (b64_mul z y) = 0.
Proof.
  intros [s|s| |s m e H] y F Z Fy; try discriminate F.
  - destruct y as [t|t| |t m e H]; try discriminate Fy; split; reflexivity.
  - exfalso. rewrite val_finite in Z by easy. cbn in Z. apply eq_0_F2R in Z. destruct s; discriminate Z.
Qed.
Lemma zero_div : forall z y : b64, finite z -> val z = 0 -> notnan y -> val y <> 0 ->
  finite (b64_div z y) /\ val (b64_div z y) = 0.
Proof.
  intros [s|s| |s m e H] y F Z Ny Vy; try discriminate F.
  - destruct y as [t|t| |t m e H]; try discriminate Ny; try (split; reflexivity). now elim Vy.
  - exfalso. rewrite val_finite in Z by easy. cbn in Z. apply eq_0_F2R in Z. destruct s; discriminate Z.
Qed.

Lemma fl_finite : forall x : b64, notnan x -> Rabs (val x) < INF -> finite x.
Proof.
  intros x N H. destruct (notnan_cases x N) as [F|[->| ->]]; [easy| |]; exfalso; cbn in H;
    pose proof INF_pos; rewrite ?Rabs_Ropp, ?Rabs_pos_eq in H; lra.
Qed.

Lemma rnd_pos : forall a b : b64, finite a -> finite b -> val a < val b -> 0 < val (b64_sub b a).
Proof.
  intros a b Fa Fb L. destruct (val_sub b a Fb Fa) as [N E].
  assert (0 <= val (b64_sub b a)) by (rewrite E; apply fl_nonneg; lra).
  destruct (Req_dec (val (b64_sub b a)) 0) as [Z|Z]; [exfalso|lra].
  rewrite E in Z. unfold fl, clamp in Z. pose proof INF_pos.
  assert (Z' : rnd (val b - val a) = 0).
  { assert (0 <= rnd (val b - val a)) by (apply rnd_nonneg; lra).
    revert Z. unfold Rmax, Rmin. repeat destruct (Rle_dec _ _); lra. }
  rewrite !val_finite in * by easy. unfold rnd in Z'.
  assert (B2R b - B2R a = 0); [|lra].
  apply round_plus_eq_0 in Z'; [exact Z'|exact valid_exp_64|apply monotone_exp_not_FTZ; [exact valid_exp_64|apply FLT_exp_monotone]|exact (valid_rnd_N _)|apply (generic_format_B2R 53 1024 b)|].
  apply generic_format_opp, (generic_format_B2R 53 1024 a).
Qed.

Theorem C55_nodes_binary64 : forall (xs ys : list b64) i x b,
  length ys = length xs -> Forall finite xs -> Forall finite ys -> increasing val xs ->
  (forall j d d', nth_error ys j = Some d -> nth_error ys (j + 1) = Some d' -> finite (b64_sub d' d)) ->
  node xs ys i x b ->
  exists y, linear_interpolate xs ys x = Ok y /\ val y = val b.
Proof.
  intros xs ys i x b L FX FY INC OV [X B].
  assert (NE : xs <> []) by (intros ->; destruct i; discriminate).
  assert (G : Forall notnan xs) by (eapply Forall_impl; [|exact FX]; intros; now apply finite_notnan).
  assert (GX : notnan x) by (rewrite Forall_forall in G; apply G; eapply nth_error_In; eauto).
  assert (EQ : forall j y, nth_error xs j = Some y -> val y = val x -> j = i).
  { intros j y Y V. destruct (Nat.lt_total j i) as [C|[C|C]]; [|easy|].
    - pose proof (INC _ _ _ _ C Y X). lra.
    - pose proof (INC _ _ _ _ C X Y). lra. }
  pose proof (nth_lt _ _ _ _ X) as LI.
  destruct (clamp_cases val notnan LEb xs G INC x GX ys (linear_loop xs ys x (length xs - 1) 1) NE)
      as [(a & A & H & E)|[(a & c & A & C & H1 & H2 & E)|[IN E]]];
      match type of E with _ = ?r => change (linear_interpolate xs ys x = r) in E end; rewrite E.
  - pose proof (increasing_le val xs INC 0 i a x ltac:(lia) A X).
    assert (0 = i)%nat as <- by (apply (EQ 0%nat a); [easy|lra]).
    destruct ys as [|d ys]; [discriminate|]. cbn in B. injection B as ->. now exists b.
  - pose proof (increasing_le val xs INC i (length xs - 1) x c ltac:(lia) X C).
    assert (EI : (length xs - 1)%nat = i) by (apply (EQ _ c); [easy|lra]).
    destruct (vback_nth _ ys) as (d & D & ->); [intros ->; destruct i; discriminate|].
    rewrite L, EI, B in D. injection D as ->. now exists d.
  - destruct (linear_half val notnan LTb xs G x GX ys IN) as (k & (a & a' & A & A' & H) & ->).
    assert (k = i) as ->.
    { destruct (Nat.lt_total k i) as [C|[C|C]]; [|easy|].
      - pose proof (increasing_le val xs INC (Datatypes.S k) i a' x C A' X). lra.
      - pose proof (INC _ _ _ _ C X A). lra. }
    rewrite X in A. injection A as <-.
    destruct (nth_some _ ys (Datatypes.S i) ltac:(apply nth_lt in A'; lia)) as (b' & B').
    unfold line. replace (Z.of_nat i + 1)%Z with (Z.of_nat (Datatypes.S i)) by lia.
    rewrite !vget_nat, X, A', B, B'. cbn [bind]. eexists. split; [reflexivity|].
    assert (FIN : forall j y, nth_error xs j = Some y -> finite y).
    { intros j y Y. rewrite Forall_forall in FX. apply FX. eapply nth_error_In; eauto. }
    assert (Fb : finite b) by (rewrite Forall_forall in FY; apply FY; eapply nth_error_In; eauto).
    pose proof (FIN _ _ X) as Fx. pose proof (FIN _ _ A') as Fa'.
    assert (Z : finite (b64_sub x x) /\ val (b64_sub x x) = 0).
    { destruct (val_sub x x Fx Fx) as [N V]. replace (val x - val x) with 0 in V by ring. rewrite fl_0 in V.
      split; [|easy]. apply fl_finite; [easy|]. rewrite V, Rabs_R0. apply INF_pos. }
    assert (Z1 := zero_mul _ (b64_sub b' b) (proj1 Z) (proj2 Z)
      ltac:(apply (OV i); [easy|now rewrite Nat.add_1_r])).
    assert (P : 0 < val (b64_sub a' x)) by (apply rnd_pos; auto; apply H).
    assert (Z2 := zero_div _ (b64_sub a' x) (proj1 Z1) (proj2 Z1) (proj1 (val_sub _ _ Fa' Fx)) ltac:(lra)).
    destruct (val_add b _ Fb (proj1 Z2)) as [N V].
    change (val (b64_add b (b64_div (b64_mul (b64_sub x x) (b64_sub b' b)) (b64_sub a' x))) = val b).
    rewrite V, (proj2 Z2), Rplus_0_r. apply fl_val; [now apply finite_notnan|easy].
Qed.
Print Assumptions C55_nodes_binary64.

(** A case of the hypotheses: nodes 0, 1, 3 with data 5, 7, 3 in binary64. *)
Lemma val_ofZ_lt : forall a b : Z, b64_ltb (b64_ofZ a) (b64_ofZ b) = true -> is_nan (b64_ofZ a) = false -> is_nan (b64_ofZ b) = false ->
  val (b64_ofZ a) < val (b64_ofZ b).
Proof.
  intros a b H A B. rewrite ltb_val in H by easy. revert H. now destruct (Rlt_bool_spec (val (b64_ofZ a)) (val (b64_ofZ b))).
Qed.

Definition bgrid : list b64 := [b64_ofZ 0; b64_ofZ 1; b64_ofZ 3].
Lemma bgrid_inc : increasing val bgrid.
Proof.
  unfold bgrid.
  repeat (apply increasing_cons; [|repeat (apply Forall_cons || apply Forall_nil); apply val_ofZ_lt; vm_compute; reflexivity]).
  apply increasing_nil.
Qed.
Lemma bgrid_notnan : Forall notnan bgrid.
Proof. repeat constructor; vm_compute; reflexivity. Qed.

Example C55_nodes_ex : exists y,
  linear_interpolate bgrid [b64_ofZ 5; b64_ofZ 7; b64_ofZ 3] (b64_ofZ 1) = Ok y /\ val y = val (b64_ofZ 7).
Proof.
  apply (C55_nodes_binary64 bgrid [b64_ofZ 5; b64_ofZ 7; b64_ofZ 3] 1).
  - reflexivity.
  - repeat constructor; vm_compute; reflexivity.
  - repeat constructor; vm_compute; reflexivity.
  - apply bgrid_inc.
  - intros [|[|[|j]]] d d' D D'; cbn [nth_error Nat.add] in D, D'; try discriminate; try (destruct j; discriminate); injection D as <-; injection D' as <-; vm_compute; reflexivity.
  - split; reflexivity.
Qed.

(** ** C56.  For every number, quadratic interpolation answers without reading outside the
    grid, and the interval found contains the query. *)
Lemma parabola_defined : forall (xs ys : list b64) x k, length ys = length xs -> (0 < k)%nat -> (Datatypes.S k < length xs)%nat ->
  exists y, parabola xs ys x (Z.of_nat k) = Ok y.
Proof.
  intros xs ys x k L P H. unfold parabola. replace (Z.of_nat k + 1)%Z with (Z.of_nat (Datatypes.S k)) by lia.
  replace (Z.of_nat k - 1)%Z with (Z.of_nat (k - 1)) by lia.
  destruct (nth_some _ xs k ltac:(lia)) as (a & A). destruct (nth_some _ xs (Datatypes.S k) H) as (a' & A').
  destruct (nth_some _ ys k ltac:(lia)) as (b & B). destruct (nth_some _ ys (Datatypes.S k) ltac:(lia)) as (b' & B').
  destruct (nth_some _ xs (k - 1) ltac:(lia)) as (a0 & A0). destruct (nth_some _ ys (k - 1) ltac:(lia)) as (b0 & B0).
  rewrite !vget_nat, A, A', B, B', A0, B0. cbn [bind]. eauto.
Qed.

Theorem C56_numbers_partial : forall (xs ys : list b64) x,
  (2 <= length xs)%nat -> (Z.of_nat (length xs) <= UINT_MOD)%Z ->
  length ys = length xs -> Forall notnan xs -> increasing val xs -> notnan x ->
  (exists y, quadratic_interpolate xs ys x = Ok y) /\
  (forall a b, vfront xs = Ok a -> vback xs = Ok b -> val a < val x < val b ->
     exists k c d, findInterval xs x = Ok k /\
       vget xs k = Ok c /\ vget xs (k + 1) = Ok d /\ val c <= val x <= val d).
Proof.
  intros xs ys x SZ MX L G INC GX. assert (NE : xs <> []) by (intros ->; cbn in SZ; lia).
  destruct (nonempty_ends xs ys NE L) as [F B]. split.
  - destruct (clamp_cases val notnan LEb xs G INC x GX ys
      (bind (findInterval xs x) (fun k => if ((k =? 0)%Z || (k =? (Z.of_nat (length xs) - 2) mod ULONG_MOD)%Z)%bool
         then line xs ys x k else parabola xs ys x k)) NE)
      as [(a & A & H & E)|[(a & b & A & B' & H1 & H2 & E)|[IN E]]];
      match type of E with _ = ?r => change (quadratic_interpolate xs ys x = r) in E end; rewrite E; auto.
    destruct (findInterval_ok val notnan LTb LEb xs G INC x GX MX IN) as (k & (c & d & C & D & _) & ->). cbn [bind].
    pose proof (nth_lt _ _ _ _ D). destruct (Z.eqb_spec (Z.of_nat k) 0) as [Z|Z]; cbn [orb].
    + now apply line_defined.
    + destruct (_ =? _)%Z; [now apply line_defined|]. apply parabola_defined; auto. lia.
  - intros a b Fa Fb H. assert (IN : inside val xs x).
    { destruct (vback_nth _ xs NE) as (b' & B' & EB). rewrite Fb in EB. injection EB as <-.
      destruct xs as [|a' xs']; [easy|]. cbn in Fa. injection Fa as ->. exists a, b. split; [reflexivity|]. auto. }
    destruct (findInterval_ok val notnan LTb LEb xs G INC x GX MX IN) as (k & (c & d & C & D & K) & E).
    exists (Z.of_nat k), c, d. split; [easy|]. rewrite vget_nat, C.
    replace (Z.of_nat k + 1)%Z with (Z.of_nat (Datatypes.S k)) by lia. rewrite vget_nat, D. auto.
Qed.
Print Assumptions C56_numbers_partial.

(** For NaN the search wraps its unsigned upper end below 0 and reads outside, on every
    grid.  (The full property also claims NaN; what is missing is exactly this.) *)
Theorem C56_nan_undefined : forall (xs ys : list b64) x,
  xs <> [] -> (Z.of_nat (length xs) <= INT_MAX)%Z -> is_nan x = true ->
  quadratic_interpolate xs ys x = UB.
Proof.
  intros xs ys x NE MX N. unfold quadratic_interpolate. destruct (vback_nth _ xs NE) as (b & _ & EB).
  destruct xs as [|a xs]; [easy|]. cbn [vfront bind].
  change (nleb x a) with (b64_leb x a). rewrite leb_nan_l by easy. rewrite EB. cbn [bind].
  change (nleb b x) with (b64_leb b x). rewrite leb_nan_r by easy.
  unfold INT_MAX in MX. cbn [length] in MX.
  unfold findInterval. rewrite search_unordered; [easy| | |cbn [length]; lia| | |].
  - intros y. apply ltb_nan_r. easy.
  - intros y. apply leb_nan_r. easy.
  - rewrite Z.mod_small; cbn [length]; unfold UINT_MOD; lia.
  - rewrite Z.mod_small; cbn [length]; unfold UINT_MOD; lia.
  - rewrite Z.mod_small; cbn [length]; unfold UINT_MOD; lia.
Qed.
Print Assumptions C56_nan_undefined.

Theorem C56_refuted : exists (xs ys : list b64) x,
  (2 <= length xs)%nat /\ (Z.of_nat (length xs) < UINT_MOD)%Z /\ length ys = length xs /\
  Forall notnan xs /\ increasing val xs /\ quadratic_interpolate xs ys x = UB.
Proof.
  exists bgrid, bgrid, b64_nan. split; [cbn; lia|]. split; [cbn; unfold UINT_MOD; lia|].
  split; [reflexivity|]. split; [apply bgrid_notnan|]. split; [apply bgrid_inc|].
  apply C56_nan_undefined; [discriminate|cbn; unfold INT_MAX; lia|reflexivity].
Qed.

Example C56_ex : exists y k c d,
  quadratic_interpolate bgrid bgrid (b64_ofZ 2) = Ok y /\ findInterval bgrid (b64_ofZ 2) = Ok k /\
  vget bgrid k = Ok c /\ vget bgrid (k + 1) = Ok d /\ val c <= val (b64_ofZ 2) <= val d.
Proof.
  assert (N2 : notnan (b64_ofZ 2)) by (vm_compute; reflexivity).
  destruct (C56_numbers_partial bgrid bgrid (b64_ofZ 2)) as [(y & Y) S];
    [cbn; lia|cbn; unfold UINT_MOD; lia|reflexivity|apply bgrid_notnan|apply bgrid_inc|exact N2|].
  destruct (S (b64_ofZ 0) (b64_ofZ 3) eq_refl eq_refl) as (k & c & d & H).
  { split; apply val_ofZ_lt; vm_compute; reflexivity. }
  exists y, k, c, d. tauto.
Qed.

(** ** C57 *)
Definition par (a0 b0 a b a' b' s : R) : R :=
  b0 * (((s - a) * (s - a')) / ((a0 - a) * (a0 - a'))) +
  b * (((s - a0) * (s - a')) / ((a - a0) * (a - a'))) +
  b' * (((s - a0) * (s - a)) / ((a' - a0) * (a' - a))).

Lemma parabola_node : forall xs ys k a0 b0 a b a' b' x,
  node xs ys k a0 b0 -> node xs ys (Datatypes.S k) a b -> node xs ys (Datatypes.S (Datatypes.S k)) a' b' ->
  parabola xs ys x (Z.of_nat (Datatypes.S k)) = Ok (par a0 b0 a b a' b' x).
Proof.
  intros xs ys k a0 b0 a b a' b' x [A0 B0] [A B] [A' B']. unfold parabola.
  replace (Z.of_nat (Datatypes.S k) - 1)%Z with (Z.of_nat k) by lia.
  replace (Z.of_nat (Datatypes.S k) + 1)%Z with (Z.of_nat (Datatypes.S (Datatypes.S k))) by lia.
  rewrite !vget_nat, A, B, A', B', A0, B0. reflexivity.
Qed.

Lemma quadratic_char : forall xs ys x, xs <> [] -> (Z.of_nat (length xs) <= UINT_MOD)%Z ->
  length ys = length xs -> increasing ident xs ->
  exists y, quadratic_interpolate xs ys x = Ok y /\
    (forall a b, node xs ys 0 a b -> x <= a -> y = b) /\
    (forall a b, node xs ys (length xs - 1) a b -> a <= x -> y = b) /\
    (inside ident xs x -> exists k a b a' b',
       node xs ys k a b /\ node xs ys (Datatypes.S k) a' b' /\ a <= x <= a' /\
       ((k = 0 \/ Datatypes.S (Datatypes.S k) = length xs)%nat /\ y = seg a b a' b' x \/
        exists k' a0 b0, k = Datatypes.S k' /\ (Datatypes.S (Datatypes.S k) < length xs)%nat /\
          node xs ys k' a0 b0 /\ y = par a0 b0 a b a' b' x)).
Proof.
  intros xs ys x NE MX L INC.
  assert (N0 : (0 < length xs)%nat) by (destruct xs; [easy|cbn; lia]).
  destruct (node_exists xs ys 0 L N0) as (a0 & b0 & A0).
  destruct (node_exists xs ys (length xs - 1) L ltac:(lia)) as (an & bn & AN).
  assert (LN : a0 <= an).
  { pose proof (increasing_le ident xs INC 0 (length xs - 1) a0 an ltac:(lia) (proj1 A0) (proj1 AN)). easy. }
  destruct (clamp_cases ident (fun _ => True) ltac:(auto) xs (all_good xs) INC x I ys
      (bind (findInterval xs x) (fun k => if ((k =? 0)%Z || (k =? (Z.of_nat (length xs) - 2) mod ULONG_MOD)%Z)%bool
         then line xs ys x k else parabola xs ys x k)) NE)
      as [(a & A & H & E)|[(a & b & A & B & H1 & H2 & E)|[IN E]]]; unfold ident in *;
      match type of E with _ = ?r => change (quadratic_interpolate xs ys x = r) in E end; rewrite E.
  - exists b0. rewrite (front_node _ _ _ _ A0). rewrite (proj1 A0) in A. injection A as <-.
    split; [easy|]. split; [|split].
    + intros a b N _. now apply (node_fun _ _ _ _ _ _ _ A0 N).
    + intros a b N Ha. destruct (node_fun _ _ _ _ _ _ _ AN N) as [-> ->].
      assert (a0 = a) as -> by lra. assert (0 = length xs - 1)%nat as E0 by (eapply increasing_inj; [exact INC|apply A0|apply N]).
      rewrite <- E0 in N. now apply (node_fun _ _ _ _ _ _ _ A0 N).
    + intros (c & d & C & _ & K). unfold ident in K. rewrite (proj1 A0) in C. injection C as <-. lra.
  - exists bn. rewrite (back_node _ _ _ _ L AN). rewrite (proj1 AN) in B. injection B as <-. rewrite (proj1 A0) in A. injection A as <-.
    split; [easy|]. split; [|split].
    + intros a b N Ha. destruct (node_fun _ _ _ _ _ _ _ A0 N) as [-> ->]. lra.
    + intros a b N _. now apply (node_fun _ _ _ _ _ _ _ AN N).
    + intros (c & d & _ & D & K). unfold ident in K. rewrite (proj1 AN) in D. injection D as <-. lra.
  - destruct (findInterval_ok ident (fun _ => True) ltac:(auto) ltac:(auto) xs (all_good xs) INC x I MX IN) as (k & K & EF).
    rewrite EF. cbn [bind]. destruct (locate xs ys x k L K) as (a & b & a' & b' & NA & NB & H).
    pose proof (nth_lt _ _ _ _ (proj1 NB)) as LK.
    assert (IN' := IN). destruct IN' as (a1 & b1 & A1 & B1 & H1). unfold ident in H1. rewrite (proj1 A0) in A1. injection A1 as <-.
    rewrite (proj1 AN) in B1. injection B1 as <-.
    replace ((Z.of_nat (length xs) - 2) mod ULONG_MOD)%Z with (Z.of_nat (length xs) - 2)%Z
      by (rewrite Z.mod_small; [easy|unfold ULONG_MOD, UINT_MOD in *; lia]).
    assert (Q : exists y, (if ((Z.of_nat k =? 0)%Z || (Z.of_nat k =? Z.of_nat (length xs) - 2)%Z)%bool
        then line xs ys x (Z.of_nat k) else parabola xs ys x (Z.of_nat k)) = Ok y /\
       ((k = 0 \/ Datatypes.S (Datatypes.S k) = length xs)%nat /\ y = seg a b a' b' x \/
        exists k' a0 b0, k = Datatypes.S k' /\ (Datatypes.S (Datatypes.S k) < length xs)%nat /\
          node xs ys k' a0 b0 /\ y = par a0 b0 a b a' b' x)).
    { destruct (Z.eqb_spec (Z.of_nat k) 0) as [Z|Z]; cbn [orb].
      - exists (seg a b a' b' x). split; [now apply line_node|]. left. split; [lia|easy].
      - destruct (Z.eqb_spec (Z.of_nat k) (Z.of_nat (length xs) - 2)) as [Z'|Z'].
        + exists (seg a b a' b' x). split; [now apply line_node|]. left. split; [lia|easy].
        + destruct k as [|k']; [easy|].
          destruct (node_exists xs ys k' L ltac:(lia)) as (c & d & NC).
          exists (par c d a b a' b' x). split; [now apply parabola_node|]. right. exists k', c, d.
          repeat split; auto; try apply NC. lia. }
    destruct Q as (y & EQ & Q). exists y. split; [easy|]. split; [|split].
    + intros c d N Hc. destruct (node_fun _ _ _ _ _ _ _ A0 N) as [-> ->]. lra.
    + intros c d N Hc. destruct (node_fun _ _ _ _ _ _ _ AN N) as [-> ->]. lra.
    + intros _. exists k, a, b, a', b'. auto.
Qed.

Theorem C57_quadratic_interpolation : forall xs ys x,
  xs <> [] -> (Z.of_nat (length xs) <= UINT_MOD)%Z -> length ys = length xs -> increasing ident xs ->
  exists y, quadratic_interpolate xs ys x = Ok y /\
    (* the nodes are matched *)
    (forall i b, node xs ys i x b -> y = b) /\
    (* quadratics are reproduced from the second node to the last but one *)
    (forall p q r a b a' b', ys = map (fun t => p * t * t + q * t + r) xs ->
       node xs ys 1 a b -> node xs ys (length xs - 2) a' b' -> a <= x <= a' ->
       y = p * x * x + q * x + r) /\
    (* affine data is reproduced on the whole grid *)
    (forall q r a b a' b', ys = map (fun t => q * t + r) xs ->
       node xs ys 0 a b -> node xs ys (length xs - 1) a' b' -> a <= x <= a' -> y = q * x + r).
Proof.
  intros xs ys x NE MX L INC. destruct (quadratic_char xs ys x NE MX L INC) as (y & E & F & B & S).
  exists y. split; [easy|].
  assert (N0 : (0 < length xs)%nat) by (destruct xs; [easy|cbn; lia]).
  destruct (node_exists xs ys 0 L N0) as (a0 & b0 & A0).
  destruct (node_exists xs ys (length xs - 1) L ltac:(lia)) as (an & bn & AN).
  assert (LTN : forall i j a b c d, (i < j)%nat -> node xs ys i a b -> node xs ys j c d -> a < c).
  { intros i j a b c d H N1 N2. now apply (INC i j a c H (proj1 N1) (proj1 N2)). }
  assert (NODE : forall i b, node xs ys i x b -> y = b).
  { intros i b N. pose proof (nth_lt _ _ _ _ (proj1 N)) as LI.
    destruct (Nat.eq_dec i 0) as [->|I0].
    { apply (F x b); [easy|lra]. }
    destruct (Nat.eq_dec i (length xs - 1)) as [->|I1].
    { apply (B x b); [easy|lra]. }
    assert (IN : inside ident xs x).
    { exists a0, an. split; [apply A0|]. split; [apply AN|]. unfold ident. split.
      - apply (LTN 0%nat i a0 b0 x b); auto. lia.
      - apply (LTN i (length xs - 1)%nat x b an bn); auto. lia. }
    destruct (S IN) as (k & a & c & a' & c' & NA & NB & H & V).
    assert (LA : a < a') by (apply (LTN k (Datatypes.S k) a c a' c'); auto).
    assert (K : (i = k /\ x = a /\ b = c) \/ (i = Datatypes.S k /\ x = a' /\ b = c')).
    { destruct (Nat.le_gt_cases i k) as [C|C].
      - assert (i = k) as ->.
        { destruct (Nat.eq_dec i k); [easy|]. assert (x < a) by (apply (LTN i k x b a c); auto; lia). lra. }
        left. destruct (node_fun _ _ _ _ _ _ _ N NA). auto.
      - assert (i = Datatypes.S k) as ->.
        { destruct (Nat.eq_dec i (Datatypes.S k)); [easy|].
          assert (a' < x) by (apply (LTN (Datatypes.S k) i a' c' x b); auto; lia). lra. }
        right. destruct (node_fun _ _ _ _ _ _ _ N NB). auto. }
    destruct V as [[_ ->]|(k' & a1 & b1 & Ek & Lk & N1 & ->)].
    - destruct K as [(_ & -> & ->)|(_ & -> & ->)]; [apply seg_left|now apply seg_right].
    - assert (a1 < a) by (apply (LTN k' k a1 b1 a c); auto; lia).
      destruct K as [(_ & -> & ->)|(_ & -> & ->)]; unfold par; field; lra. }
  split; [easy|]. split.
  - intros p q r a b a' b' EY NA NB H.
    assert (QUAD : forall i s t, node xs ys i s t -> t = p * s * s + q * s + r).
    { intros i s t [N1 N2]. rewrite EY in N2. rewrite nth_error_map, N1 in N2. cbn in N2. congruence. }
    assert (LX : (3 <= length xs)%nat).
    { pose proof (nth_lt _ _ _ _ (proj1 NA)). destruct (Nat.eq_dec (length xs) 2) as [E2|E2]; [|lia].
      exfalso. rewrite E2 in NB. pose proof (LTN (2 - 2)%nat 1%nat a' b' a b ltac:(lia) NB NA). lra. }
    assert (IN : inside ident xs x).
    { exists a0, an. split; [apply A0|]. split; [apply AN|]. unfold ident.
      assert (a0 < a) by (apply (LTN 0%nat 1%nat a0 b0 a b); auto).
      assert (a' < an) by (apply (LTN (length xs - 2)%nat (length xs - 1)%nat a' b' an bn); auto; lia). lra. }
    destruct (S IN) as (k & c & d & c' & d' & NC & ND & HC & V).
    assert (LC : c < c') by (apply (LTN k (Datatypes.S k) c d c' d'); auto).
    destruct V as [[[->|EK] ->]|(k' & a1 & b1 & Ek & Lk & N1 & ->)].
    + destruct (node_fun _ _ _ _ _ _ _ ND NA) as [-> ->]. assert (x = a) as -> by lra.
      rewrite seg_right by easy. apply (QUAD 1%nat); easy.
    + replace k with (length xs - 2)%nat in NC by lia.
      destruct (node_fun _ _ _ _ _ _ _ NC NB) as [-> ->]. assert (x = a') as -> by lra.
      rewrite seg_left. now apply (QUAD (length xs - 2)%nat).
    + rewrite (QUAD _ _ _ NC), (QUAD _ _ _ ND), (QUAD _ _ _ N1).
      assert (a1 < c) by (apply (LTN k' k a1 b1 c d); auto; lia).
      unfold par. field. lra.
  - intros q r a b a' b' EY NA NB H.
    assert (AFF : forall i s t, node xs ys i s t -> t = q * s + r).
    { intros i s t [N1 N2]. rewrite EY in N2. rewrite nth_error_map, N1 in N2. cbn in N2. congruence. }
    destruct (Rle_lt_dec x a) as [Ha|Ha].
    { assert (x = a) as -> by lra. rewrite (NODE 0%nat b) by easy. now apply (AFF 0%nat). }
    destruct (Rle_lt_dec a' x) as [Hb|Hb].
    { assert (x = a') as -> by lra. rewrite (NODE (length xs - 1)%nat b') by easy. now apply (AFF (length xs - 1)%nat). }
    assert (IN : inside ident xs x) by (exists a, a'; split; [apply NA|split; [apply NB|split; easy]]).
    destruct (S IN) as (k & c & d & c' & d' & NC & ND & HC & V).
    assert (LC : c < c') by (apply (LTN k (Datatypes.S k) c d c' d'); auto).
    destruct V as [[_ ->]|(k' & a1 & b1 & Ek & Lk & N1 & ->)].
    + rewrite (AFF _ _ _ NC), (AFF _ _ _ ND). unfold seg. field. lra.
    + rewrite (AFF _ _ _ NC), (AFF _ _ _ ND), (AFF _ _ _ N1).
      assert (a1 < c) by (apply (LTN k' k a1 b1 c d); auto; lia).
      unfold par. field. lra.
Qed.
Print Assumptions C57_quadratic_interpolation.

Example C57_ex : quadratic_interpolate [0; 1; 2; 4] [0; 1; 4; 16] (3/2) = Ok (9/4).
Proof.
  assert (I : increasing ident [0; 1; 2; 4]) by inc.
  destruct (C57_quadratic_interpolation [0; 1; 2; 4] [0; 1; 4; 16] (3/2)) as (y & -> & _ & Q & _);
    [discriminate|cbn; unfold UINT_MOD; lia|reflexivity|exact I|].
  f_equal. rewrite (Q 1 0 0 1 1 2 4); [field| | | |lra].
  - cbn. repeat f_equal; ring.
  - split; reflexivity.
  - split; reflexivity.
Qed.

(** ** C58 *)
Theorem C58_linear_partial : forall xs ys x,
  xs <> [] -> length ys = length xs -> increasing ident xs -> Forall (fun y => 0 <= y) ys ->
  exists y, linear_interpolate xs ys x = Ok y /\ 0 <= y.
Proof.
  intros xs ys x NE L INC POS. destruct (linear_char xs ys x NE L INC) as (y & E & F & B & S).
  exists y. split; [easy|].
  assert (P : forall i a b, node xs ys i a b -> 0 <= b).
  { intros i a b [_ N]. rewrite Forall_forall in POS. apply POS. eapply nth_error_In; eauto. }
  assert (N0 : (0 < length xs)%nat) by (destruct xs; [easy|cbn; lia]).
  destruct (node_exists xs ys 0 L N0) as (a0 & b0 & A0).
  destruct (node_exists xs ys (length xs - 1) L ltac:(lia)) as (an & bn & AN).
  destruct (Rle_lt_dec x a0) as [H|H].
  { rewrite (F a0 b0) by easy. eauto. }
  destruct (Rle_lt_dec an x) as [H'|H'].
  { rewrite (B an bn) by easy. eauto. }
  assert (IN : inside ident xs x) by (exists a0, an; split; [apply A0|split; [apply AN|split; easy]]).
  destruct (linear_inside ident (fun _ => True) ltac:(auto) xs (all_good xs) x I ys IN) as (k & K & _).
  destruct (locate xs ys x k L K) as (c & d & c' & d' & NC & ND & HC).
  rewrite (S _ _ _ _ _ NC ND HC).
  assert (LC : c < c') by (apply (INC k (Datatypes.S k)); [lia|apply NC|apply ND]).
  pose proof (seg_bounds c d c' d' x LC HC). pose proof (P _ _ _ NC). pose proof (P _ _ _ ND).
  assert (0 <= Rmin d d') by (apply Rmin_glb; easy). lra.
Qed.
Print Assumptions C58_linear_partial.

(** Quadratic interpolation of nonnegative data can be negative: here the data is the
    payoff of a put with strike 1 on the grid 0, 1, 2, 3 and the query is 1.5. *)
Theorem C58_refuted : exists xs ys x y,
  increasing ident xs /\ length ys = length xs /\ Forall (fun y => 0 <= y) ys /\
  quadratic_interpolate xs ys x = Ok y /\ y < 0.
Proof.
  exists [0; 1; 2; 3], [1; 0; 0; 0], (3/2).
  assert (I : increasing ident [0; 1; 2; 3]) by inc.
  destruct (quadratic_char [0; 1; 2; 3] [1; 0; 0; 0] (3/2)) as (y & E & _ & _ & S);
    [discriminate|cbn; unfold UINT_MOD; lia|reflexivity|exact I|].
  exists y. split; [exact I|]. split; [reflexivity|]. split; [repeat constructor; lra|]. split; [exact E|].
  destruct S as (k & a & b & a' & b' & NA & NB & H & V).
  { exists 0, 3. repeat split; unfold ident; lra. }
  assert (k = 1%nat) as ->.
  { destruct k as [|[|[|[|k]]]]; destruct NA as [NA _], NB as [NB _]; cbn in NA, NB;
      try injection NA as <-; try injection NB as <-; try discriminate; try easy; exfalso; lra. }
  destruct NA as [A B], NB as [A' B']. cbn in A, B, A', B'.
  injection A as <-. injection B as <-. injection A' as <-. injection B' as <-.
  destruct V as [[[C|C] _]|(k' & a0 & b0 & Ek & _ & [A0 B0] & ->)]; [discriminate|discriminate|].
  injection Ek as <-. cbn in A0, B0. injection A0 as <-. injection B0 as <-. unfold par. lra.
Qed.

(** In binary64 even linear interpolation can leave the range: grid -1, 1.25 + 2^-52,
    data 3.7, 0, query 1.25 (both differences to -1 round to 2.25). *)
Theorem C58_binary64_refuted : exists (xs ys : list b64) x y,
  Forall finite xs /\ increasing val xs /\ length ys = length xs /\
  Forall (fun y => 0 <= val y) ys /\ linear_interpolate xs ys x = Ok y /\ val y < 0.
Proof.
  set (x2 := b64_div (b64_ofZ (5 * 2 ^ 50 + 1)) (b64_ofZ (2 ^ 52))).
  set (x := b64_div (b64_ofZ 5) (b64_ofZ 4)).
  set (y1 := b64_div (b64_ofZ 37) (b64_ofZ 10)).
  set (y := b64_add y1 (b64_div (b64_mul (b64_sub x (b64_ofZ (-1))) (b64_sub (b64_ofZ 0) y1)) (b64_sub x2 (b64_ofZ (-1))))).
  assert (LT : forall a b, b64_ltb a b = true -> is_nan a = false -> is_nan b = false -> val a < val b).
  { intros a b H A B. rewrite ltb_val in H by easy. revert H. now destruct (Rlt_bool_spec (val a) (val b)). }
  exists [b64_ofZ (-1); x2], [y1; b64_ofZ 0], x, y.
  split; [repeat constructor; vm_compute; reflexivity|]. split.
  { apply increasing_cons; [apply increasing_cons; [apply increasing_nil|constructor]|].
    constructor; [|constructor]. apply LT; vm_compute; reflexivity. }
  split; [reflexivity|]. split.
  { constructor; [|constructor; [|constructor]].
    - apply Rlt_le. rewrite <- n0_val. apply LT; vm_compute; reflexivity.
    - change (b64_ofZ 0) with (n0 : b64). rewrite n0_val. lra. }
  split.
  - unfold linear_interpolate. cbn [vfront bind].
    assert (E1 : nleb x (b64_ofZ (-1)) = false) by (vm_compute; reflexivity).
    assert (E2 : nleb x2 x = false) by (vm_compute; reflexivity).
    assert (E3 : nltb x x2 = true) by (vm_compute; reflexivity).
    rewrite E1. unfold vback. cbn [rev app bind]. rewrite E2. cbn [length Nat.sub linear_loop].
    change (vget [b64_ofZ (-1); x2] 1) with (Ok x2). cbn [bind]. rewrite E3. reflexivity.
  - rewrite <- n0_val. apply LT; vm_compute; reflexivity.
Qed.
Print Assumptions C58_binary64_refuted.

Example C58_ex : exists y, linear_interpolate [0; 1; 3] [5; 0; 3] 2 = Ok y /\ 0 <= y.
Proof. apply C58_linear_partial; [discriminate|reflexivity|inc|repeat constructor; lra]. Qed.
