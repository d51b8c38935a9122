(** Lemmas on the American Monte Carlo pricer. *)
From Coq Require Import String List ZArith Bool Lia Reals Lra.
From Flocq Require Import Core.
From Verif Require Import M_Num M_Outcome M_Dict M_Stock M_Market M_Payoff M_Option M_Random M_Model
  M_Regression M_MonteCarlo M_Builder S_Model S_MonteCarlo S_American L_Model L_MonteCarlo.
Import ListNotations.

Section Generic.
Context {T : Type} {num : Num T}.
Local Open Scope num_scope.
Variable env : Env T.
Variable la : LinAlg T.
Variable o : Option T.
Variable pay : T -> T.
Hypothesis PAY : forall x, option_payoff1 o x = Ok (pay x).
Variable df : T.
Variable b : Basis T.
Variable r : Regression T.

Definition itm (x : T) : bool := pay x >? n0.

Lemma collect_eq : forall xs am, length xs = length am ->
  collect o df xs am = Ok (filter itm xs,
    map (fun p => snd p * df) (filter (fun p => itm (fst p)) (combine xs am)), map itm xs).
Proof.
  induction xs as [|x xs IH]; intros [|a am] L; try discriminate; cbn [collect combine filter map]; [easy|].
  rewrite PAY. cbn [bind]. rewrite IH by (now injection L). cbn [bind fst]. fold (itm x). now destruct (itm x).
Qed.

(** What a step does to the price of one path. *)
Definition stepped (p : T * T) (a' : T) : Prop :=
  (a' = pay (fst p) /\ itm (fst p) = true) \/ a' = snd p * df.

Lemma decide_ok : forall bases coeffs xs am i am', length xs = length am ->
  decide o df bases coeffs i xs (map itm xs) am = Ok am' -> Forall2 stepped (combine xs am) am'.
Proof.
  intros bases coeffs. induction xs as [|x xs IH]; intros [|a am] i am' L E; try discriminate.
  - cbn in E. injection E as <-. constructor.
  - cbn [map decide] in E. injection L as L. destruct (itm x) eqn:I.
    + rewrite PAY in E. cbn [bind] in E. destruct (vget bases i) as [row| |]; try discriminate. cbn [bind] in E.
      destruct (row_times row coeffs) as [c| |]; try discriminate. cbn [bind] in E.
      destruct (decide o df bases coeffs (i + 1) xs (map itm xs) am) as [rest| |] eqn:E'; try discriminate.
      cbn [bind] in E. injection E as <-. cbn [combine]. constructor; [|eapply IH; eauto].
      destruct (pay x >? c); [left|right]; now cbn.
    + destruct (decide o df bases coeffs i xs (map itm xs) am) as [rest| |] eqn:E'; try discriminate.
      cbn [bind] in E. injection E as <-. cbn [combine]. constructor; [now right|eapply IH; eauto].
Qed.

Lemma decide_total : forall bases coeffs, Forall (fun row => length row = length coeffs) bases ->
  forall xs am i, length xs = length am -> (0 <= i)%Z ->
  (Z.to_nat i + length (filter itm xs) <= length bases)%nat ->
  exists am', decide o df bases coeffs i xs (map itm xs) am = Ok am'.
Proof.
  intros bases coeffs F. induction xs as [|x xs IH]; intros [|a am] i L Hi Hb; try discriminate.
  - now exists [].
  - injection L as L. cbn [map decide filter] in *. destruct (itm x) eqn:I; cbn [length] in Hb.
    + rewrite PAY. cbn [bind]. rewrite vget_nth by easy.
      destruct (nth_error bases (Z.to_nat i)) as [row|] eqn:N; [|apply nth_error_None in N; lia].
      cbn [bind]. unfold row_times. rewrite Forall_forall in F. rewrite (F row) by (eapply nth_error_In; eauto).
      rewrite Nat.eqb_refl. cbn [bind].
      destruct (IH am (i + 1)%Z L ltac:(lia)) as [rest E]; [rewrite Z2Nat.inj_add by lia; cbn; lia|].
      rewrite E. cbn. eauto.
    + destruct (IH am i L Hi Hb) as [rest E]. rewrite E. cbn. eauto.
Qed.

(** The pure backward induction over the dates n-1, ..., 1, given their prices. *)
Fixpoint lsm_cols (cols : list (list T)) (am : list T) : outcome (list T) :=
  match cols with
  | [] => Ok am
  | xs :: cols' =>
      bind (exercise_or_continue la o df b r xs am
        (filter itm xs, map (fun p => snd p * df) (filter (fun p => itm (fst p)) (combine xs am)), map itm xs))
      (lsm_cols cols')
  end.

Lemma filter_nil : forall {A} (f : A -> bool) l, filter f l = [] -> existsb f l = false.
Proof. induction l as [|x l IH]; cbn; [easy|]. destruct (f x); [discriminate|]. exact IH. Qed.
Lemma filter_cons : forall {A} (f : A -> bool) l y ys, filter f l = y :: ys -> existsb f l = true.
Proof. induction l as [|x l IH]; cbn; [easy|]. destruct (f x); [easy|]. intros. eapply IH; eauto. Qed.

Lemma exercise_ok : forall xs am am', length xs = length am ->
  exercise_or_continue la o df b r xs am
    (filter itm xs, map (fun p => snd p * df) (filter (fun p => itm (fst p)) (combine xs am)), map itm xs) = Ok am' ->
  if existsb itm xs then Forall2 stepped (combine xs am) am' else am' = am.
Proof.
  intros xs am am' L E. unfold exercise_or_continue in E.
  destruct (filter itm xs) as [|y ys] eqn:F.
  - rewrite (filter_nil _ _ F). now injection E as <-.
  - rewrite (filter_cons _ _ _ _ F).
    destruct (generate b (y :: ys)) as [bases| |]; try discriminate. cbn [bind] in E.
    match goal with H : bind ?s _ = _ |- _ => destruct s as [coeffs| |]; try discriminate end. cbn [bind] in E.
    eapply decide_ok; eauto.
Qed.

(** Basis and regression that fit together. *)
Definition regression_works : Prop := forall xs ys, xs <> [] -> length xs = length ys ->
  exists rows coeffs, generate b xs = Ok rows /\ solve la r rows ys = Ok coeffs /\
    length rows = length xs /\ Forall (fun row => length row = length coeffs) rows.

Lemma filter_combine : forall xs am, length xs = length am ->
  length (filter (fun p : T * T => itm (fst p)) (combine xs am)) = length (filter itm xs).
Proof.
  induction xs as [|x xs IH]; intros [|a am] L; try discriminate; cbn; [easy|]. injection L as L.
  destruct (itm x); cbn; now rewrite IH.
Qed.

Lemma exercise_total : regression_works -> forall xs am, length xs = length am ->
  exists am', exercise_or_continue la o df b r xs am
    (filter itm xs, map (fun p => snd p * df) (filter (fun p => itm (fst p)) (combine xs am)), map itm xs) = Ok am'.
Proof.
  intros W xs am L. unfold exercise_or_continue. destruct (filter itm xs) as [|y ys] eqn:F; [eauto|].
  destruct (W (y :: ys) (map (fun p => snd p * df) (filter (fun p => itm (fst p)) (combine xs am))))
    as (rows & coeffs & E1 & E2 & E3 & E4); [easy|rewrite map_length, filter_combine by easy; now rewrite F|].
  rewrite E1. cbn [bind]. rewrite E2. cbn [bind]. apply decide_total; try easy; try lia.
  rewrite F, E3. cbn. lia.
Qed.

Lemma Forall2_len : forall {A B} (P : A -> B -> Prop) l l', Forall2 P l l' -> length l = length l'.
Proof. induction 1; cbn; congruence. Qed.

Lemma exercise_len : forall xs am am', length xs = length am ->
  exercise_or_continue la o df b r xs am
    (filter itm xs, map (fun p => snd p * df) (filter (fun p => itm (fst p)) (combine xs am)), map itm xs) = Ok am' ->
  length am' = length xs.
Proof.
  intros xs am am' L E. apply exercise_ok in E; [|easy]. destruct (existsb itm xs).
  - apply Forall2_len in E. rewrite combine_length in E. lia.
  - now subst.
Qed.

Lemma lsm_total : regression_works -> forall n cols am, Forall (fun xs => length xs = n) cols -> length am = n ->
  exists am', lsm_cols cols am = Ok am'.
Proof.
  intros W n. induction cols as [|xs cols IH]; intros am F L; cbn [lsm_cols]; [eauto|].
  inversion F as [|? ? F1 F2]; subst. destruct (exercise_total W xs am F1) as [am1 E]. rewrite E. cbn [bind].
  apply IH; [easy|]. rewrite (exercise_len _ _ _ F1 E). congruence.
Qed.

(** A property of values kept by one step holds at the end. *)
Lemma lsm_inv : forall (V : T -> Prop) n, (forall a, V a -> V (a * df)) ->
  forall cols am am', Forall (fun xs => length xs = n /\ forall x, In x xs -> itm x = true -> V (pay x)) cols ->
  length am = n -> Forall V am -> lsm_cols cols am = Ok am' -> Forall V am' /\ length am' = n.
Proof.
  intros V n HV. induction cols as [|xs cols IH]; intros am am' F L A E; cbn [lsm_cols] in E.
  - injection E as <-. auto.
  - inversion F as [|? ? [F1 F1'] F2]; subst.
    match goal with H : bind ?s _ = _ |- _ => destruct s as [am1| |] eqn:E1; try discriminate end. cbn [bind] in E.
    pose proof (exercise_len _ _ _ F1 E1) as L1.
    destruct (IH am1 am' F2 ltac:(congruence)) as [R1 R2]; auto.
    apply exercise_ok in E1; [|easy]. destruct (existsb itm xs); [|now subst].
    clear - E1 F1' A HV. remember (combine xs am) as ps. assert (P : forall p, In p ps -> In (fst p) xs /\ In (snd p) am).
    { intros [u v] I. subst ps. split; [eapply in_combine_l; eauto|eapply in_combine_r; eauto]. }
    clear Heqps. induction E1 as [|p a' ps as' S _ IH]; constructor.
    + destruct (P p (or_introl eq_refl)) as [P1 P2]. rewrite Forall_forall in A.
      destruct S as [[-> S]| ->]; auto.
    + apply IH. intros q I. apply P. now right.
Qed.

Lemma omap_ok : forall {A B} (f : A -> outcome B) (h : A -> B) l, (forall x, In x l -> f x = Ok (h x)) ->
  omap f l = Ok (map h l).
Proof.
  intros A B f h. induction l as [|x l IH]; intros H; cbn [omap map]; [easy|].
  rewrite H by (now left). cbn [bind]. rewrite IH; [easy|]. intros. apply H. now right.
Qed.

Lemma path_col_ok : forall paths n j, Forall (fun p => length p = n) paths -> (j < n)%nat ->
  path_col paths (Z.of_nat j) = Ok (at_date paths (S j)).
Proof.
  intros paths n j F H. unfold path_col, at_date. apply omap_ok. intros p I. rewrite Forall_forall in F.
  rewrite vget_nth by lia. rewrite Nat2Z.id. cbn [pred].
  rewrite (nth_error_nth' p n0) by (rewrite (F p I); lia). reflexivity.
Qed.

Lemma lsm_down_eq : forall paths n, Forall (fun p => length p = n) paths ->
  forall k am, (k <= n)%nat -> length am = length paths ->
  lsm_down la o df b r paths k am = lsm_cols (map (at_date paths) (rev (seq 1 k))) am.
Proof.
  intros paths n F. induction k as [|k IH]; intros am H L; cbn [lsm_down]; [easy|].
  rewrite (path_col_ok paths n k F) by lia. cbn [bind].
  assert (LA : length (at_date paths (S k)) = length am) by (unfold at_date; now rewrite map_length).
  rewrite collect_eq by easy. cbn [bind].
  rewrite seq_S, rev_app_distr, map_app. cbn [plus rev app map lsm_cols].
  destruct (exercise_or_continue la o df b r (at_date paths (S k)) am _) as [am'| |] eqn:E; cbn [bind]; try easy.
  apply IH; [lia|]. apply exercise_len in E; [|easy]. congruence.
Qed.

Lemma repeat_sim_eq : forall {A} (sim : SM T A) N, (N <= INT_MAX)%Z ->
  forall g, repeat_sim sim N g = runs sim (Z.to_nat N) g.
Proof.
  intros A sim N L g. unfold repeat_sim, sfor_int. destruct (Z.leb_spec N INT_MAX); [|lia].
  enough (HH : forall n i l g, siter n i (fun _ l => sbind sim (fun x => sret (l ++ [x]))) l g =
    match runs sim n g with (Ok l', g') => (Ok (l ++ l'), g') | (Throw e, g') => (Throw e, g') | (UB, g') => (UB, g') end).
  { rewrite HH. now destruct (runs sim (Z.to_nat N) g) as [[l| |] g']. }
  induction n as [|n IH]; intros i l h; cbn [siter runs].
  - now rewrite app_nil_r.
  - unfold sbind at 1. unfold sbind at 1. destruct (sim h) as [[x| |] h1]; try easy. unfold sret at 1.
    rewrite IH. destruct (runs sim n h1) as [[l'| |] h2]; try easy. now rewrite <- app_assoc.
Qed.

Lemma each_length : forall {A B} (f : A -> SM T B) l g ys g', each f l g = (Ok ys, g') -> length ys = length l.
Proof.
  intros A B f. induction l as [|x l IH]; intros g ys g' E; cbn [each] in E; sok; [easy|].
  cbn. f_equal. eapply IH; eauto.
Qed.

(** The draws of one date do not depend on the option prices. *)
Lemma collect_bridge_eq : forall back t_j t_jp1 xs am g, length xs = length am ->
  collect_bridge back o df t_j t_jp1 xs am g =
  match each (fun x => back x t_j t_jp1) xs g with
  | (Ok ys, g') => (Ok (ys, (filter itm ys,
      map (fun p => snd p * df) (filter (fun p => itm (fst p)) (combine ys am)), map itm ys)), g')
  | (Throw e, g') => (Throw e, g')
  | (UB, g') => (UB, g')
  end.
Proof.
  intros back t1 t2. induction xs as [|x xs IH]; intros [|a am] g L; try discriminate; cbn [collect_bridge each]; [easy|].
  injection L as L. unfold sbind, slift. destruct (back x t1 t2 g) as [[y| |] g1]; try easy.
  rewrite PAY. rewrite IH by easy. destruct (each _ xs g1) as [[ys| |] g2]; try easy.
  unfold sret. cbn [filter combine map fst]. fold (itm y). now destruct (itm y).
Qed.

Lemma bridge_down_ok : forall m wm dt n xs am g am' g', length xs = length am ->
  bridge_down la (simulatePriceBackward env m wm) o df dt b r n xs am g = (Ok am', g') ->
  exists cols, bridged env m wm dt n xs g = (Ok cols, g') /\ lsm_cols cols am = Ok am' /\
    length cols = n /\ Forall (fun ys => length ys = length xs) cols.
Proof.
  intros m wm dt. induction n as [|n IH]; intros xs am g am' g' L E; cbn [bridge_down bridged] in *.
  - unfold sret in E. injection E as <- <-. now exists [].
  - apply sbind_ok in E. destruct E as ([ys c] & g1 & E1 & E2). rewrite collect_bridge_eq in E1 by easy.
    destruct (each _ xs g) as [[ys'| |] g1'] eqn:EE; try discriminate. injection E1 as <- <- <-.
    pose proof (each_length _ _ _ _ _ EE) as LY.
    apply sbind_ok in E2. destruct E2 as (am1 & g2 & E2 & E3). unfold slift in E2. injection E2 as E2 <-.
    pose proof (exercise_len ys' am am1 ltac:(congruence) E2) as L1.
    destruct (IH ys' am1 g1' am' g' ltac:(congruence) E3) as (cols & B & C & D & F).
    exists (ys' :: cols). unfold sbind. rewrite EE, B. unfold sret. repeat split.
    + cbn [lsm_cols]. unfold exercise_or_continue. rewrite E2. exact C.
    + cbn. now rewrite D.
    + constructor; [easy|]. rewrite <- LY. exact F.
Qed.

Lemma bridge_down_total : regression_works -> forall m wm dt n xs am g cols g', length xs = length am ->
  bridged env m wm dt n xs g = (Ok cols, g') ->
  exists am', bridge_down la (simulatePriceBackward env m wm) o df dt b r n xs am g = (Ok am', g').
Proof.
  intros W m wm dt. induction n as [|n IH]; intros xs am g cols g' L E; cbn [bridge_down bridged] in *.
  - unfold sret in *. injection E as <- <-. eauto.
  - apply sbind_ok in E. destruct E as (ys & g1 & E1 & E). apply sbind_ok in E. destruct E as (rest & g2 & E2 & E).
    unfold sret in E. injection E as <- <-. pose proof (each_length _ _ _ _ _ E1) as LY.
    unfold sbind at 1. rewrite collect_bridge_eq by easy. rewrite E1.
    destruct (exercise_total W ys am ltac:(congruence)) as [am1 X].
    unfold sbind at 1, slift at 1. rewrite X. eapply IH; [|eauto].
    symmetry. eapply exercise_len; [|exact X]. congruence.
Qed.
End Generic.

Section Price.
Context {T : Type} {num : Num T}.
Local Open Scope num_scope.
Variable env : Env T.
Variable la : LinAlg T.

Lemma to_int_small : forall u, (0 <= u <= INT_MAX)%Z -> to_int u = u.
Proof. intros u H. unfold to_int. destruct (Z.leb_spec u INT_MAX); lia. Qed.

Lemma rev_seq_cons : forall n, (1 <= n)%nat -> rev (seq 1 n) = n :: rev (seq 1 (n - 1)).
Proof.
  intros n H. destruct n as [|n]; [lia|]. rewrite seq_S, rev_app_distr. cbn [plus rev app].
  now rewrite Nat.sub_succ, Nat.sub_0_r.
Qed.

(** The American price is the pure backward induction on the simulated prices. *)
Lemma american_ok : forall o w m wm bs rg N g v g' pay,
  (forall x, option_payoff1 o x = Ok (pay x)) -> (1 <= N <= INT_MAX)%Z -> (1 <= gDim g <= INT_MAX)%Z ->
  american_price env la o w m wm bs rg N g = (Ok v, g') ->
  exists last earlier am mn,
    price_dates env m wm (optT o) (Z.to_nat N) (Z.to_nat (gDim g)) (bridges m g) g = (Ok (last :: earlier), g') /\
    length last = Z.to_nat N /\ length earlier = (Z.to_nat (gDim g) - 1)%nat /\
    Forall (fun xs => length xs = Z.to_nat N) earlier /\
    lsm_cols la o pay (discount_factor w (optT o / nofZ (gDim g))) bs rg earlier (map pay last) = Ok am /\
    mean am = Ok mn /\ v = mn * discount_factor w (optT o / nofZ (gDim g)).
Proof.
  intros o w m wm bs rg N g v g' pay PAY LN LD E.
  assert (E' : (if bridges m g then bridge_price env la (simulatePriceBackward env m wm) o w m wm bs rg N g
                else standard_price env la o w m wm bs rg N g) = (Ok v, g')).
  { revert E. unfold american_price, american_price_with, bridges. destruct (gQuasi g), (mdKind m); easy. }
  clear E. unfold price_dates. destruct (bridges m g).
  - unfold bridge_price in E'. cbv zeta in E'. unfold getSteps, getDim in E'.
    apply sbind_ok in E'. destruct E' as (xs & g1 & E1 & E). rewrite repeat_sim_eq in E1 by lia.
    apply sbind_ok in E. destruct E as (am0 & g2 & E2 & E). unfold slift in E2. injection E2 as E2 <-.
    rewrite (omap_ok _ pay) in E2 by auto. injection E2 as <-.
    apply sbind_ok in E. destruct E as (am & g3 & E3 & E).
    apply sbind_ok in E. destruct E as (mn & g4 & E4 & E). unfold slift in E4. injection E4 as E4 <-.
    unfold sret in E. injection E as <- <-.
    pose proof (runs_length _ _ _ _ _ E1) as LX.
    rewrite to_int_small in E3 by lia.
    eapply (bridge_down_ok env la o pay PAY) in E3; [|now rewrite map_length].
    destruct E3 as (cols & B & C & D & F).
    replace (Z.to_nat (gDim g - 1)) with (Nat.pred (Z.to_nat (gDim g))) in * by lia.
    exists xs, cols, am, mn. unfold sbind. rewrite E1. rewrite Z2Nat.id by lia. rewrite B. unfold sret.
    repeat split; auto; [lia|]. rewrite <- LX. exact F.
  - unfold standard_price in E'. cbv zeta in E'. unfold getSteps, getDim in E'.
    apply sbind_ok in E'. destruct E' as (paths & g1 & E1 & E). rewrite repeat_sim_eq in E1 by lia.
    unfold slift in E. injection E as E <-.
    pose proof (runs_length _ _ _ _ _ E1) as LX.
    assert (F : Forall (fun p => length p = Z.to_nat (gDim g)) paths).
    { apply Forall_forall. intros p I.
      destruct (runs_in _ (keeps_simulate env m wm (optT o)) _ _ _ _ E1 p I) as (h & h' & D & _ & S).
      apply simulate_length in S. destruct S as [S _]. now rewrite S, D. }
    replace ((gDim g - 1) mod UINT_MOD)%Z with (Z.of_nat (Z.to_nat (gDim g) - 1)) in E
      by (rewrite Z.mod_small; unfold UINT_MOD, INT_MAX in *; lia).
    rewrite (path_col_ok paths (Z.to_nat (gDim g))) in E by (easy || lia). cbn [bind] in E.
    rewrite (omap_ok _ pay) in E by auto. cbn [bind] in E. rewrite to_int_small in E by lia.
    rewrite (lsm_down_eq la o pay PAY _ _ _ paths (Z.to_nat (gDim g)) F) in E;
      [|lia|unfold at_date; now rewrite !map_length].
    match type of E with bind ?s _ = _ => destruct s as [am| |] eqn:EL; try discriminate end. cbn [bind] in E.
    destruct (mean am) as [mn| |] eqn:M; try discriminate. cbn [bind] in E. injection E as <-.
    replace (S (Z.to_nat (gDim g) - 1)) with (Z.to_nat (gDim g)) in * by lia.
    exists (at_date paths (Z.to_nat (gDim g))), (map (at_date paths) (rev (seq 1 (Z.to_nat (gDim g) - 1)))), am, mn.
    unfold sbind. rewrite E1. unfold sret.
    rewrite (rev_seq_cons (Z.to_nat (gDim g))) by lia. cbn [map].
    replace (Z.to_nat (gDim g - 1)) with (Z.to_nat (gDim g) - 1)%nat in EL by lia.
    repeat split; auto.
    + unfold at_date. now rewrite map_length.
    + now rewrite map_length, rev_length, seq_length.
    + apply Forall_forall. intros xs I. apply in_map_iff in I. destruct I as (d & <- & _).
      unfold at_date. now rewrite map_length.
Qed.

Lemma american_total : forall o w m wm bs rg N g last earlier g' pay,
  (forall x, option_payoff1 o x = Ok (pay x)) -> (1 <= N <= INT_MAX)%Z -> (1 <= gDim g <= INT_MAX)%Z ->
  regression_works la bs rg ->
  price_dates env m wm (optT o) (Z.to_nat N) (Z.to_nat (gDim g)) (bridges m g) g = (Ok (last :: earlier), g') ->
  exists v, american_price env la o w m wm bs rg N g = (Ok v, g').
Proof.
  intros o w m wm bs rg N g lst earlier g' pay PAY LN LD RW E.
  assert (E' : american_price env la o w m wm bs rg N g =
     (if bridges m g then bridge_price env la (simulatePriceBackward env m wm) o w m wm bs rg N g
      else standard_price env la o w m wm bs rg N g)).
  { unfold american_price, american_price_with, bridges. destruct (gQuasi g), (mdKind m); easy. }
  rewrite E'. clear E'. unfold price_dates in E. destruct (bridges m g).
  - apply sbind_ok in E. destruct E as (xs & g1 & E1 & E). apply sbind_ok in E. destruct E as (cols & g2 & E2 & E).
    unfold sret in E. injection E as <- <- <-.
    pose proof (runs_length _ _ _ _ _ E1) as LX.
    unfold bridge_price. cbv zeta. unfold getSteps, getDim. unfold sbind at 1. rewrite repeat_sim_eq by lia. rewrite E1.
    unfold sbind at 1, slift at 1. rewrite (omap_ok _ pay) by auto. rewrite to_int_small by lia.
    rewrite Z2Nat.id in E2 by lia.
    replace (Z.to_nat (gDim g - 1)) with (Nat.pred (Z.to_nat (gDim g))) by lia.
    destruct (bridge_down_total env la o pay PAY (discount_factor w (optT o / nofZ (gDim g))) bs rg RW m wm _ _ xs (map pay xs) g1 cols g2
      ltac:(now rewrite map_length) E2) as [am B].
    pose proof B as B'. eapply (bridge_down_ok env la o pay PAY) in B'; [|now rewrite map_length].
    destruct B' as (cols' & B1 & B2 & B3 & B4). rewrite B1 in E2. injection E2 as ->.
    eapply (lsm_inv la o pay PAY _ bs rg (fun _ => True) (length xs)) in B2; try easy;
      [|rewrite Forall_forall in *; auto|now rewrite map_length|rewrite Forall_forall; auto].
    destruct B2 as [_ LA].
    unfold sbind at 1. rewrite B. unfold sbind, slift, mean. destruct am as [|a am]; [cbn in LA; lia|]. unfold sret. eauto.
  - apply sbind_ok in E. destruct E as (paths & g1 & E1 & E). unfold sret in E. injection E as E <-.
    pose proof (runs_length _ _ _ _ _ E1) as LX.
    assert (F : Forall (fun p => length p = Z.to_nat (gDim g)) paths).
    { apply Forall_forall. intros p I.
      destruct (runs_in _ (keeps_simulate env m wm (optT o)) _ _ _ _ E1 p I) as (h & h' & D & _ & S).
      apply simulate_length in S. destruct S as [S _]. now rewrite S, D. }
    unfold standard_price. cbv zeta. unfold getSteps, getDim. unfold sbind at 1. rewrite repeat_sim_eq by lia. rewrite E1.
    unfold slift.
    replace ((gDim g - 1) mod UINT_MOD)%Z with (Z.of_nat (Z.to_nat (gDim g) - 1))
      by (rewrite Z.mod_small; unfold UINT_MOD, INT_MAX in *; lia).
    rewrite (path_col_ok paths (Z.to_nat (gDim g))) by (easy || lia). cbn [bind].
    rewrite (omap_ok _ pay) by auto. cbn [bind]. rewrite to_int_small by lia.
    rewrite (lsm_down_eq la o pay PAY _ _ _ paths (Z.to_nat (gDim g)) F);
      [|lia|unfold at_date; now rewrite !map_length].
    match goal with |- context[lsm_cols la o pay ?d bs rg ?c ?a] =>
      destruct (lsm_total la o pay PAY d bs rg RW (length paths) c a) as [am A] end.
    { apply Forall_forall. intros xs I. apply in_map_iff in I. destruct I as (d & <- & _).
      unfold at_date. now rewrite map_length. }
    { unfold at_date. now rewrite !map_length. }
    rewrite A. cbn [bind].
    eapply (lsm_inv la o pay PAY _ bs rg (fun _ => True) (length paths)) in A; try easy;
      [|apply Forall_forall; intros xs I; apply in_map_iff in I; destruct I as (d & <- & _);
        unfold at_date; rewrite map_length; auto
       |unfold at_date; now rewrite !map_length|rewrite Forall_forall; auto].
    destruct A as [_ LA]. unfold mean. destruct am as [|a am]; [cbn in LA; lia|]. cbn. eauto.
Qed.
End Price.

(** ** Exercise dates *)
Section ExerciseDates.
Local Open Scope R_scope.
Variable la : LinAlg R.
Variable o : Option R.
Let p := optPayoff o.
Hypothesis PAY : forall x, option_payoff1 o x = Ok (terminal p x).
Variable df : R.
Variable b : Basis R.
Variable r : Regression R.

Lemma itm_dec : forall x, itm (terminal p) x = if Rlt_dec 0 (terminal p x) then true else false.
Proof.
  intros x. unfold itm, n0. cbn. destruct (Rlt_bool_spec 0 (terminal p x)), (Rlt_dec 0 (terminal p x)); easy || lra.
Qed.

Definition between (dates : list (list R)) (d tau : nat) : nat :=
  length (filter (some_itm p dates) (seq (S d) (tau - S d))).

Definition exercised (dates : list (list R)) (N d : nat) (am : list R) (tau : nat -> nat) : Prop :=
  forall i, (i < N)%nat -> (d < tau i <= length dates)%nat /\
    nth i am 0 = terminal p (price_at dates (tau i) i) * df ^ between dates d (tau i) /\
    ((tau i < length dates)%nat -> 0 < terminal p (price_at dates (tau i) i)).

Lemma lsm_exercised : forall dates N cols pre am am' tau, dates = pre ++ cols -> pre <> [] ->
  Forall (fun xs => length xs = N) cols -> length am = N ->
  exercised dates N (length cols) am tau ->
  lsm_cols la o (terminal p) df b r cols am = Ok am' ->
  length am' = N /\ exists tau', exercised dates N 0 am' tau'.
Proof.
  intros dates N. induction cols as [|xs cols IH]; intros pre am am' tau D NE F L I E; cbn [lsm_cols] in E.
  - injection E as <-. eauto.
  - inversion F as [|? ? F1 F2]. subst x l.
    match goal with H : bind ?s _ = _ |- _ => destruct s as [am1| |] eqn:E1; try discriminate end. cbn [bind] in E.
    pose proof (exercise_len la o (terminal p) PAY df b r xs am am1 ltac:(congruence) E1) as L1.
    apply (exercise_ok la o (terminal p) PAY) in E1; [|congruence].
    set (d := length cols) in *. cbn [length] in I. fold d in I.
    assert (LD : length dates = (length pre + S d)%nat) by (rewrite D, app_length; reflexivity).
    assert (Xs : nth (length dates - S d) dates [] = xs).
    { replace (length dates - S d)%nat with (length pre) by lia. rewrite D, app_nth2, Nat.sub_diag by lia. reflexivity. }
    assert (P0 : (0 < length pre)%nat) by (destruct pre; [easy|cbn; lia]).
    assert (SI : some_itm p dates (S d) = existsb (itm (terminal p)) xs).
    { unfold some_itm. rewrite Xs. clear. induction xs; cbn [existsb]; [easy|]. now rewrite IHxs, itm_dec. }
    assert (BT : forall t, (S d < t)%nat -> between dates d t =
      if existsb (itm (terminal p)) xs then S (between dates (S d) t) else between dates (S d) t).
    { intros t Ht. unfold between. replace (t - S d)%nat with (S (t - S (S d))) by lia. cbn [seq filter].
      rewrite SI. now destruct (existsb (itm (terminal p)) xs). }
    assert (IX : exists tau1, exercised dates N d am1 tau1).
    { destruct (existsb (itm (terminal p)) xs) eqn:EX.
      - assert (ST : forall i, (i < N)%nat -> stepped (terminal p) df (nth i xs 0, nth i am 0) (nth i am1 0)).
        { clear - E1 F1 L. intros i Hi. revert xs am N am1 E1 F1 L i Hi.
          induction xs as [|x xs IH]; intros [|a am] N am1 E F L i Hi; cbn in *; try lia.
          inversion E; subst. destruct i as [|i]; cbn [nth]; [easy|].
          apply (IH am (length xs)); auto; lia. }
        exists (fun i => if Req_EM_T (nth i am1 0) (terminal p (nth i xs 0))
                         then if Rlt_dec 0 (terminal p (nth i xs 0)) then S d else tau i else tau i).
        intros i Hi. destruct (I i Hi) as (I1 & I2 & I3).
        assert (PX : price_at dates (S d) i = nth i xs 0) by (unfold price_at; now rewrite Xs).
        assert (CONT : nth i am1 0 = nth i am 0 * df ->
          (d < tau i <= length dates)%nat /\
          nth i am1 0 = terminal p (price_at dates (tau i) i) * df ^ between dates d (tau i) /\
          ((tau i < length dates)%nat -> 0 < terminal p (price_at dates (tau i) i))).
        { intros Ec. split; [lia|]. split; [|easy]. rewrite Ec, I2, BT by lia. cbn [pow]. ring. }
        destruct (ST i Hi) as [[S1 S2]|S1]; cbn [fst snd] in *.
        + destruct (Req_EM_T _ _) as [_|NQ]; [|easy]. rewrite itm_dec in S2.
          destruct (Rlt_dec _ _) as [LT|]; [|discriminate].
          split; [lia|]. rewrite PX. split; [|easy]. rewrite S1. unfold between. rewrite Nat.sub_diag. cbn. ring.
        + destruct (Req_EM_T _ _) as [Q|NQ]; [|now apply CONT]. destruct (Rlt_dec _ _) as [LT|]; [|now apply CONT].
          split; [lia|]. rewrite PX. split; [|easy]. rewrite Q. unfold between. rewrite Nat.sub_diag. cbn. ring.
      - exists tau. subst am1. intros i Hi. destruct (I i Hi) as (I1 & I2 & I3).
        split; [lia|]. split; [|easy]. rewrite I2, BT by lia. reflexivity. }
    destruct IX as [tau1 I1].
    refine (IH (pre ++ [xs]) am1 am' tau1 _ _ F2 _ I1 E).
    + rewrite <- app_assoc. exact D.
    + destruct pre; easy.
    + congruence.
Qed.

Lemma start_exercised : forall last earlier N, length last = N ->
  exercised (last :: earlier) N (length earlier) (map (terminal p) last) (fun _ => S (length earlier)).
Proof.
  intros lst earlier N L i Hi. cbn [length]. split; [lia|]. split; [|lia].
  unfold between, price_at. cbn [length]. rewrite !Nat.sub_diag. cbn [seq filter length nth pow].
  rewrite (nth_indep _ 0 (terminal p 0)) by (rewrite map_length; lia). rewrite map_nth. ring.
Qed.
End ExerciseDates.
