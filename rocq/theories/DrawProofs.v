(** Lemmas about DrawModel. *)
From Coq Require Import Sorting.Permutation.
From Coq Require Import Reals Lra Lia List Bool Arith ZArith String.
From Verif Require Import Base BasicsModel MicroModel MicroSpec MicroProofs NestModel NestSpec DrawModel DrawSpec.
From Verif Require NestProofs PrimProofs WelfareProofs.
Import ListNotations.
Local Open Scope R_scope.

(** ** Drawing from a list of labels with weights *)
Section Labels.
  Context {K : Type}.
  Variable K_dec : forall x y : K, {x = y} + {x <> y}.
  Definition kept (L : list (K * R)) : list (K * R) := filter (fun e => is_nonzero (snd e)) L.
  Definition pick (L : list (K * R)) (acc u : R) : option (K * R) :=
    nth_error (kept L) (searchsorted_right (cumsum acc (map snd (kept L))) u).

  Lemma is_nonzero_spec x : is_nonzero x = true <-> x <> 0.
  Proof using. unfold is_nonzero. destruct (Req_EM_T x 0); split; intro H; try reflexivity; try discriminate; tauto. Qed.
  Lemma is_nonzero_false x : is_nonzero x = false <-> x = 0.
  Proof using. unfold is_nonzero. destruct (Req_EM_T x 0); split; intro H; try reflexivity; try discriminate; tauto. Qed.

  Lemma kept_sum L : sum_over (kept L) snd = sum_over L snd.
  Proof using.
    unfold kept. induction L as [|[x w] L IH]; [reflexivity|]. cbn [filter snd sum_over]. destruct (is_nonzero w) eqn:E.
    - cbn [sum_over snd]. rewrite IH. reflexivity.
    - apply is_nonzero_false in E. rewrite IH, E. ring.
  Qed.

  Lemma pick_in L acc u e : pick L acc u = Some e -> In e L /\ snd e <> 0.
  Proof using. intro H. apply nth_error_In, filter_In in H. rewrite is_nonzero_spec in H. exact H. Qed.

  Lemma pick_spec L : forall acc, (forall e, In e L -> 0 <= snd e) -> NoDup (map fst L) ->
    exists lo : K -> R, forall x w, In (x, w) L ->
      acc <= lo x /\ lo x + w <= acc + sum_over L snd /\
      forall u, acc <= u < acc + sum_over L snd -> (option_map fst (pick L acc u) = Some x <-> lo x <= u < lo x + w).
  Proof using K_dec.
    induction L as [|[x w] L IH]; intros acc P N.
    - exists (fun _ => 0). intros x w [].
    - cbn [map fst] in N. apply NoDup_cons_iff in N. destruct N as [N1 N2].
      assert (P0 : 0 <= w) by exact (P (x, w) (or_introl eq_refl)).
      assert (P1 : forall e, In e L -> 0 <= snd e) by (intros e He; apply P; right; exact He).
      assert (T := so_nonneg L snd P1).
      destruct (IH (acc + w) P1 N2) as [lo H].
      exists (fun y => if K_dec y x then acc else lo y). intros y v Hy.
      assert (Skip : w = 0 -> forall u, pick ((x, w) :: L) acc u = pick L (acc + w) u).
      { intros -> u. unfold pick, kept. cbn [filter snd]. rewrite (proj2 (is_nonzero_false 0) eq_refl), Rplus_0_r. reflexivity. }
      assert (Head : w <> 0 -> forall u, pick ((x, w) :: L) acc u = if Rlt_dec u (acc + w) then Some (x, w) else pick L (acc + w) u).
      { intros Hw u. unfold pick, kept. cbn [filter snd]. rewrite (proj2 (is_nonzero_spec w) Hw). cbn [map snd cumsum searchsorted_right].
        destruct (Rlt_dec u (acc + w)); reflexivity. }
      cbn [sum_over snd] in *. destruct (K_dec y x) as [->|Ne].
      + assert (v = w) as ->.
        { destruct Hy as [E|Hy]; [congruence|]. exfalso. apply N1. apply in_map_iff. exists (x, v). split; [reflexivity|exact Hy]. }
        split; [lra|]. split; [lra|]. intros u Hu.
        assert (Never : option_map fst (pick L (acc + w) u) <> Some x).
        { intro E. destruct (pick L (acc + w) u) as [e|] eqn:Ep; [|discriminate]. apply pick_in in Ep. destruct Ep as [Ep _].
          cbn [option_map] in E. injection E as E. apply N1. rewrite <- E. apply in_map, Ep. }
        destruct (Req_dec w 0) as [W0|W0].
        * rewrite (Skip W0). split; [tauto|lra].
        * rewrite (Head W0). destruct (Rlt_dec u (acc + w)); cbn [option_map fst]; split; intro Q; try lra; try reflexivity. tauto.
      + destruct Hy as [E|Hy]; [congruence|]. destruct (H y v Hy) as [H1 [H2 H3]]. split; [lra|]. split; [lra|]. intros u Hu.
        destruct (Req_dec w 0) as [W0|W0].
        * rewrite (Skip W0). apply H3. lra.
        * rewrite (Head W0). destruct (Rlt_dec u (acc + w)); [|apply H3; lra]. cbn [option_map fst]. split; [intro E; congruence|lra].
  Qed.

  Lemma pick_some L : forall acc u, (forall e, In e L -> 0 <= snd e) -> acc <= u < acc + sum_over L snd -> exists e, pick L acc u = Some e.
  Proof using.
    induction L as [|[x w] L IH]; intros acc u P Hu; cbn [sum_over snd] in *; [lra|].
    assert (P1 : forall e, In e L -> 0 <= snd e) by (intros e He; apply P; right; exact He).
    unfold pick, kept in *. cbn [filter snd]. destruct (is_nonzero w) eqn:E.
    - cbn [map snd cumsum searchsorted_right]. destruct (Rlt_dec u (acc + w)); cbn [nth_error]; [eauto|]. apply IH; [exact P1|lra].
    - apply is_nonzero_false in E. apply IH; [exact P1|lra].
  Qed.
End Labels.

Lemma cumsum_last p : forall acc d, last (cumsum acc p) d = match p with [] => d | _ => acc + sum_over p (fun x => x) end.
Proof.
  induction p as [|x p IH]; intros acc d; [reflexivity|]. cbn [cumsum]. destruct p as [|y p].
  - cbn. ring.
  - change (last ((acc + x) :: cumsum (acc + x) (y :: p)) d) with (last (cumsum (acc + x) (y :: p)) d). rewrite IH. cbn [sum_over]. ring.
Qed.
Lemma map_div_one (l : list R) : map (fun c => c / 1) l = l.
Proof. induction l as [|x l IH]; [reflexivity|]. cbn [map]. rewrite IH. f_equal. field. Qed.

(** ** Labels of choices *)
Definition label : Type := (Z * nat * (nat * option nat))%type.
Lemma label_dec : forall x y : label, {x = y} + {x <> y}.
Proof. repeat decide equality. Qed.
Definition entry_list (d : sampled) : list (label * R) :=
  let '(t, s, q) := d in
  flat_map (fun i => map (fun c => ((t, i, cell_index (s_shape s) c), survey_weight s q i c)) (cells (s_shape s) (s_J s))) (seq 0 (s_I s)).
Definition all_entries (order : list sampled) : list (label * R) := flat_map entry_list order.

Lemma entries_kept order : flat_map entries order = kept (all_entries order).
Proof.
  unfold all_entries, kept. induction order as [|[[t s] q] order IH]; [reflexivity|]. cbn [flat_map]. rewrite filter_app, IH. reflexivity.
Qed.

Lemma truncate_max x : truncate x = Rmax 0 x.
Proof. unfold truncate. destruct (Rlt_dec x 0); [rewrite Rmax_left|rewrite Rmax_right]; lra. Qed.
Lemma mass_is t s q i c : survey_weight s q i c = mass (t, s, q) i c.
Proof. apply truncate_max. Qed.
Lemma mass_nonneg d i c : 0 <= mass d i c.
Proof. destruct d as [[t s] q]. apply Rmax_l. Qed.
Lemma total_is order : sum_over (all_entries order) snd = total_mass order.
Proof.
  unfold all_entries, total_mass. rewrite so_flat_map. apply so_ext. intros [[t s] q] _. unfold entry_list. rewrite so_flat_map, so_seq.
  apply sumn_ext. intros i _. rewrite so_map. apply so_ext. intros c _. cbn [snd]. apply mass_is.
Qed.
Lemma entry_in order x w : In (x, w) (all_entries order) <-> exists t s q i c, In (t, s, q) order /\ within (t, s, q) i c /\
  x = (t, i, cell_index (s_shape s) c) /\ w = mass (t, s, q) i c.
Proof.
  unfold all_entries. rewrite in_flat_map. split.
  - intros [[[t s] q] [Hd H]]. unfold entry_list in H. apply in_flat_map in H. destruct H as [i [Hi H]]. apply in_map_iff in H.
    destruct H as [c [E Hc]]. injection E as <- <-. exists t, s, q, i, c. apply in_seq in Hi.
    split; [exact Hd|]. split; [split; [lia|exact Hc]|]. split; [reflexivity|apply mass_is].
  - intros (t & s & q & i & c & Hd & [Hi Hc] & -> & ->). exists (t, s, q). split; [exact Hd|]. unfold entry_list. apply in_flat_map.
    exists i. split; [apply in_seq; lia|]. apply in_map_iff. exists c. split; [rewrite (mass_is t); reflexivity|exact Hc].
Qed.
Lemma entries_nonneg order e : In e (all_entries order) -> 0 <= snd e.
Proof. destruct e as [x w]. intro H. apply entry_in in H. destruct H as (t & s & q & i & c & _ & _ & _ & ->). apply mass_nonneg. Qed.

(** Positions on an axis. *)
Lemma choice_position o J a : In a (options_of o J) -> nth_error (options_of o J) (choice_index o a) = Some a.
Proof.
  unfold options_of. intro H. apply in_app_or in H. destruct a as [j|].
  - destruct H as [H|H]; [exfalso; destruct o; cbn in H; [destruct H as [H|H]; [discriminate|exact H]|exact H]|].
    apply in_map_iff in H. destruct H as [k [E H]]. injection E as ->. apply in_seq in H.
    assert (Q : nth_error (map Some (seq 0 J)) j = Some (Some j)).
    { apply map_nth_error. rewrite (nth_error_nth' _ O) by (rewrite seq_length; lia). rewrite seq_nth by lia. reflexivity. }
    destruct o; cbn; exact Q.
  - destruct o; [reflexivity|]. destruct H as [[]|H]. apply in_map_iff in H. destruct H as [k [E _]]. discriminate.
Qed.
Lemma choice_index_position o J a k : nth_error (options_of o J) k = Some a -> k = choice_index o a.
Proof.
  unfold options_of. assert (Q : forall n, nth_error (map Some (seq 0 J)) n = Some a -> a = Some n).
  { intros n H. rewrite nth_error_map in H. destruct (nth_error (seq 0 J) n) as [x|] eqn:E; [|discriminate].
    cbn in H. injection H as <-. assert (L : (n < List.length (seq 0 J))%nat) by (apply nth_error_Some; congruence).
    rewrite seq_length in L. rewrite (nth_error_nth' _ O) in E by (rewrite seq_length; exact L). rewrite seq_nth in E by exact L.
    injection E as <-. reflexivity. }
  destruct o; cbn [app].
  - destruct k as [|k]; cbn [nth_error]; intro H; [injection H as <-; reflexivity|]. rewrite (Q k H). reflexivity.
  - intro H. rewrite (Q k H). reflexivity.
Qed.
Lemma nth_options_in o J k a : nth_error (options_of o J) k = Some a -> In a (options_of o J).
Proof. apply nth_error_In. Qed.

Lemma cell_index_inj s J c c2 : In c (cells s J) -> In c2 (cells s J) -> cell_index s c = cell_index s c2 -> c = c2.
Proof.
  destruct s as [o|o1 o2]; cbn [cells].
  - intros H H2. apply in_map_iff in H, H2. destruct H as [a [<- Ha]], H2 as [b [<- Hb]]. cbn [cell_index]. intro E. injection E as E.
    apply choice_position in Ha, Hb. rewrite E in Ha. congruence.
  - intros H H2. apply in_flat_map in H, H2. destruct H as [a [Ha H]], H2 as [a2 [Ha2 H2]]. apply in_map_iff in H, H2.
    destruct H as [b [<- Hb]], H2 as [b2 [<- Hb2]]. cbn [cell_index]. intro E. injection E as E E2.
    apply choice_position in Ha, Ha2, Hb, Hb2. rewrite E in Ha. rewrite E2 in Hb. congruence.
Qed.

Lemma describes_label t s q i c n t2 i2 j b : within (t, s, q) i c ->
  (describes (t, s, q) i c (mk_drawn n t2 i2 j b) <-> (t2, i2, (j, b)) = (t, i, cell_index (s_shape s) c)).
Proof.
  intros [Hi Hc]. unfold describes. cbn [d_market d_agent d_choice d_second]. destruct (s_shape s) as [o|o1 o2]; cbn [cells] in Hc.
  - apply in_map_iff in Hc. destruct Hc as [a [<- Ha]]. cbn [cell_index]. split.
    + intros (-> & -> & H & ->). apply choice_index_position in H. rewrite H. reflexivity.
    + intro E. injection E as -> -> -> ->. repeat split. apply choice_position, Ha.
  - apply in_flat_map in Hc. destruct Hc as [a [Ha Hc]]. apply in_map_iff in Hc. destruct Hc as [x [<- Hx]]. cbn [cell_index]. split.
    + intros (-> & -> & H & k & -> & H2). apply choice_index_position in H, H2. rewrite H, H2. reflexivity.
    + intro E. injection E as -> -> -> ->. repeat split; [apply choice_position, Ha|]. eexists. split; [reflexivity|apply choice_position, Hx].
Qed.

Lemma options_nodup o J : NoDup (options_of o J).
Proof.
  unfold options_of. assert (Q : NoDup (map (@Some nat) (seq 0 J))).
  { apply FinFun.Injective_map_NoDup; [intros x y E; congruence|apply seq_NoDup]. }
  destruct o; cbn [app]; [|exact Q]. constructor; [|exact Q]. intro H. apply in_map_iff in H. destruct H as [k [E _]]. discriminate.
Qed.
Lemma nodup_map_in {A B} (f : A -> B) l : (forall x y, In x l -> In y l -> f x = f y -> x = y) -> NoDup l -> NoDup (map f l).
Proof.
  induction l as [|a l IH]; intros H N; [constructor|]. apply NoDup_cons_iff in N. destruct N as [N1 N2]. cbn [map]. constructor.
  - intro Q. apply in_map_iff in Q. destruct Q as [x [E Hx]]. apply N1. rewrite (H a x); [exact Hx|left; reflexivity|right; exact Hx|congruence].
  - apply IH; [|exact N2]. intros x y Hx Hy. apply H; right; assumption.
Qed.
Lemma nodup_flat_map {A B} (f : A -> list B) l : NoDup l -> (forall a, In a l -> NoDup (f a)) ->
  (forall a b x, In a l -> In b l -> In x (f a) -> In x (f b) -> a = b) -> NoDup (flat_map f l).
Proof.
  induction l as [|a l IH]; intros N H D; [constructor|]. apply NoDup_cons_iff in N. destruct N as [N1 N2]. cbn [flat_map].
  assert (Dj : forall x, In x (f a) -> ~ In x (flat_map f l)).
  { intros x Hx Q. apply in_flat_map in Q. destruct Q as [b [Hb Q]]. apply N1. rewrite (D a b x); [exact Hb|left; reflexivity|right; exact Hb|exact Hx|exact Q]. }
  assert (Na := H a (or_introl eq_refl)). assert (Nl : NoDup (flat_map f l)).
  { apply IH; [exact N2|intros b Hb; apply H; right; exact Hb|]. intros b c x Hb Hc. apply D; right; assumption. }
  clear - Na Nl Dj. induction (f a) as [|y k IHk]; [exact Nl|]. apply NoDup_cons_iff in Na. destruct Na as [A1 A2]. cbn [app]. constructor.
  - intro Q. apply in_app_or in Q. destruct Q as [Q|Q]; [exact (A1 Q)|]. exact (Dj y (or_introl eq_refl) Q).
  - apply IHk; [|exact A2]. intros x Hx. apply Dj. right. exact Hx.
Qed.
Lemma cells_nodup s J : NoDup (cells s J).
Proof.
  destruct s as [o|o1 o2]; cbn [cells].
  - apply nodup_map_in; [intros; congruence|apply options_nodup].
  - apply nodup_flat_map; [apply options_nodup| |].
    + intros a _. apply nodup_map_in; [intros; congruence|apply options_nodup].
    + intros a b x _ _ Ha Hb. apply in_map_iff in Ha, Hb. destruct Ha as [y [<- _]], Hb as [z [E _]]. congruence.
Qed.
Lemma map_flat_map {A B C} (g : B -> C) (f : A -> list B) l : map g (flat_map f l) = flat_map (fun a => map g (f a)) l.
Proof. induction l as [|a l IH]; [reflexivity|]. cbn [flat_map]. rewrite map_app, IH. reflexivity. Qed.
Lemma entry_labels d x : In x (map fst (entry_list d)) -> exists i c, within d i c /\ x = (market_of d, i, cell_index (s_shape (snd (fst d))) c).
Proof.
  destruct d as [[t s] q]. unfold entry_list. rewrite map_flat_map. intro H. apply in_flat_map in H. destruct H as [i [Hi H]]. rewrite map_map in H.
  apply in_map_iff in H. destruct H as [c [<- Hc]]. apply in_seq in Hi. exists i, c. split; [split; [lia|exact Hc]|reflexivity].
Qed.
Lemma labels_nodup order : NoDup (map market_of order) -> NoDup (map fst (all_entries order)).
Proof.
  intro N. unfold all_entries. rewrite map_flat_map. apply nodup_flat_map.
  - exact (NoDup_map_inv _ _ N).
  - intros [[t s] q] _. unfold entry_list. rewrite map_flat_map. apply nodup_flat_map; [apply seq_NoDup| |].
    + intros i _. rewrite map_map. cbn [fst]. apply nodup_map_in; [|apply cells_nodup]. intros c c2 Hc Hc2 E. injection E as E.
      apply (cell_index_inj (s_shape s) (s_J s)); assumption.
    + intros i j x _ _ Hi Hj. rewrite map_map in Hi, Hj. apply in_map_iff in Hi, Hj. destruct Hi as [c [<- _]], Hj as [c2 [E _]]. cbn [fst] in E. congruence.
  - intros d d2 x Hd Hd2 H H2. destruct (entry_labels d x H) as (i & c & _ & ->). destruct (entry_labels d2 _ H2) as (i2 & c2 & _ & E).
    assert (Em : market_of d = market_of d2) by congruence. clear - N Hd Hd2 Em.
    induction order as [|a order IH]; [contradiction Hd|]. cbn [map] in N. apply NoDup_cons_iff in N. destruct N as [N1 N2].
    destruct Hd as [<-|Hd], Hd2 as [<-|Hd2]; [reflexivity| | |exact (IH N2 Hd Hd2)]; exfalso; apply N1.
    + rewrite Em. apply in_map, Hd2.
    + rewrite <- Em. apply in_map, Hd.
Qed.

(** ** The law of simulated data *)
Definition scaled (order : list sampled) : list (label * R) := map (fun e => (fst e, snd e / total_mass order)) (all_entries order).
Lemma total_nonneg order : 0 <= total_mass order.
Proof. rewrite <- total_is. apply so_nonneg, entries_nonneg. Qed.
Lemma scaled_sum order : total_mass order <> 0 -> sum_over (scaled order) snd = 1.
Proof.
  intro T. unfold scaled. rewrite so_map. cbn [snd]. unfold Rdiv. rewrite (so_scal_r _ (/ total_mass order) snd), total_is. field. exact T.
Qed.
Lemma scaled_kept order : total_mass order <> 0 -> kept (scaled order) = map (fun e => (fst e, snd e / total_mass order)) (kept (all_entries order)).
Proof.
  intro T. unfold scaled, kept. induction (all_entries order) as [|[x w] L IH]; [reflexivity|]. cbn [map filter fst snd].
  assert (E : is_nonzero (w / total_mass order) = is_nonzero w).
  { destruct (is_nonzero w) eqn:E.
    - apply is_nonzero_spec in E. apply is_nonzero_spec. intro Q. apply E. replace w with (w / total_mass order * total_mass order) by (field; exact T). rewrite Q. ring.
    - apply is_nonzero_false in E. apply is_nonzero_false. rewrite E. field. exact T. }
  rewrite E. destruct (is_nonzero w); cbn [map fst snd]; rewrite IH; reflexivity.
Qed.
Lemma scaled_nonneg order : total_mass order <> 0 -> forall e, In e (scaled order) -> 0 <= snd e.
Proof.
  intros T e H. apply in_map_iff in H. destruct H as [[x w] [<- H]]. cbn [snd fst]. apply entries_nonneg in H. cbn [snd] in H.
  assert (T0 := total_nonneg order). unfold Rdiv. apply Rmult_le_pos; [exact H|]. left. apply Rinv_0_lt_compat. lra.
Qed.
Lemma scaled_labels order : map fst (scaled order) = map fst (all_entries order).
Proof. unfold scaled. rewrite map_map. reflexivity. Qed.
Definition row_of (n : nat) (e : option (label * R)) : drawn :=
  match e with
  | Some (t, i, (j, b), _) => mk_drawn n t i j b
  | None => mk_drawn n 0 0 0 None
  end.
Lemma row_scaled order n e : option_map fst e = option_map fst (match e with Some (x, w) => Some (x, w / total_mass order) | None => None end) ->
  row_of n e = row_of n (match e with Some (x, w) => Some (x, w / total_mass order) | None => None end).
Proof. destruct e as [[[[t i] [j b]] w]|]; reflexivity. Qed.

Lemma simulate_is order N u : simulate_micro_data order N u =
  if Req_EM_T (total_mass order) 0 then None else Some (map (fun n => row_of n (pick (scaled order) 0 (u n))) (seq 0 N)).
Proof.
  unfold simulate_micro_data. rewrite entries_kept. cbv zeta.
  assert (E : @sum_over (Z * nat * (nat * option nat) * R) (kept (all_entries order)) (@snd (Z * nat * (nat * option nat)) R) = total_mass order)
    by exact (eq_trans (kept_sum _) (total_is _)).
  rewrite E. clear E.
  destruct (Req_EM_T (total_mass order) 0) as [T|T]; [reflexivity|]. f_equal. apply map_ext. intro n.
  unfold pick. rewrite scaled_kept by exact T. rewrite map_map. cbn [snd].
  set (p := map (fun e : label * R => snd e / total_mass order) (kept (all_entries order))).
  assert (S : sum_over p (fun x => x) = 1).
  { assert (E := scaled_sum order T). rewrite <- kept_sum, scaled_kept, so_map in E by exact T. cbn [snd] in E. unfold p. rewrite so_map. exact E. }
  assert (RC : random_choice p (u n) = searchsorted_right (cumsum 0 p) (u n)).
  { unfold random_choice. cbv zeta. rewrite cumsum_last. destruct p as [|x p']; [cbn in S; lra|]. rewrite S, Rplus_0_l, map_div_one. reflexivity. }
  change (random_choice (map (fun e : Z * nat * (nat * option nat) * R => snd e / total_mass order) (kept (all_entries order))) (u n)) with (random_choice p (u n)).
  rewrite RC, nth_error_map. fold label.
  destruct (nth_error (kept (all_entries order)) (searchsorted_right (cumsum 0 p) (u n))) as [[[[t i] [j b]] w]|]; reflexivity.
Qed.

Lemma rejects order N u : simulate_micro_data order N u = None <-> total_mass order = 0.
Proof. rewrite simulate_is. destruct (Req_EM_T (total_mass order) 0); split; intro H; congruence || reflexivity. Qed.

Lemma nth_map_seq {A} (f : nat -> A) N n r : nth_error (map f (seq 0 N)) n = Some r -> r = f n.
Proof.
  rewrite nth_error_map. destruct (nth_error (seq 0 N) n) as [x|] eqn:E; [|discriminate]. cbn. intro H. injection H as <-.
  assert (L : (n < List.length (seq 0 N))%nat) by (apply nth_error_Some; congruence). rewrite seq_length in L.
  rewrite (nth_error_nth' _ O) in E by (rewrite seq_length; exact L). rewrite seq_nth in E by exact L. injection E as <-. reflexivity.
Qed.

Lemma law order : NoDup (map market_of order) -> total_mass order <> 0 -> exists lo hi, drawn_from order lo hi.
Proof.
  intros N T. assert (T0 := total_nonneg order).
  destruct (pick_spec label_dec (scaled order) 0 (scaled_nonneg order T)) as [lo H].
  { rewrite scaled_labels. apply labels_nodup, N. }
  rewrite scaled_sum in H by exact T.
  set (shape_at := fun t : Z => match find (fun d => Z.eqb (market_of d) t) order with Some d => s_shape (snd (fst d)) | None => Two true end).
  set (width_at := fun t i c => match find (fun d => Z.eqb (market_of d) t) order with Some d => mass d i c / total_mass order | None => 0 end).
  assert (F : forall d, In d order -> find (fun d2 => Z.eqb (market_of d2) (market_of d)) order = Some d).
  { clear - N. induction order as [|a order IH]; intros d Hd; [contradiction Hd|]. cbn [map] in N. apply NoDup_cons_iff in N. destruct N as [N1 N2].
    cbn [find]. destruct (Z.eqb_spec (market_of a) (market_of d)) as [E|E].
    - destruct Hd as [<-|Hd]; [reflexivity|]. exfalso. apply N1. rewrite E. apply in_map, Hd.
    - destruct Hd as [<-|Hd]; [congruence|]. apply IH; assumption. }
  assert (In_scaled : forall t s q i c, In (t, s, q) order -> within (t, s, q) i c ->
    In ((t, i, cell_index (s_shape s) c), mass (t, s, q) i c / total_mass order) (scaled order)).
  { intros t s q i c Hd Hw. unfold scaled. apply in_map_iff. exists ((t, i, cell_index (s_shape s) c), mass (t, s, q) i c). split; [reflexivity|].
    apply entry_in. exists t, s, q, i, c. auto. }
  exists (fun t i c => lo (t, i, cell_index (shape_at t) c)), (fun t i c => lo (t, i, cell_index (shape_at t) c) + width_at t i c).
  assert (At : forall t s q, In (t, s, q) order -> shape_at t = s_shape s /\ forall i c, width_at t i c = mass (t, s, q) i c / total_mass order).
  { intros t s q Hd. assert (Q := F _ Hd). unfold market_of in Q at 2. cbn [fst] in Q. unfold shape_at, width_at. rewrite Q. split; reflexivity. }
  assert (W0 : forall d i c, 0 <= mass d i c / total_mass order).
  { intros d i c. unfold Rdiv. apply Rmult_le_pos; [apply mass_nonneg|]. left. apply Rinv_0_lt_compat. lra. }
  constructor.
  - intros [[t s] q] i c Hd Hw. destruct (At t s q Hd) as [E1 E2]. unfold market_of. cbn [fst]. rewrite E1, E2.
    destruct (H _ _ (In_scaled t s q i c Hd Hw)) as [H1 [H2 _]]. assert (Q := W0 (t, s, q) i c). lra.
  - intros [[t s] q] i c Hd Hw. destruct (At t s q Hd) as [E1 E2]. unfold market_of. cbn [fst]. rewrite E2. ring.
  - intros M u rows E. rewrite simulate_is in E. destruct (Req_EM_T (total_mass order) 0) as [Tz|Tz]; [discriminate|]. injection E as <-. split.
    + rewrite map_length, seq_length. reflexivity.
    + intros n r Hr. apply nth_map_seq in Hr. subst r. unfold row_of. destruct (pick (scaled order) 0 (u n)) as [[[[t i] [j b]] w]|]; reflexivity.
  - intros M u rows n r [[t s] q] i c E Hr Hu Hd Hw. rewrite simulate_is in E. destruct (Req_EM_T (total_mass order) 0) as [Tz|Tz]; [discriminate|].
    injection E as <-. apply nth_map_seq in Hr. subst r. destruct (At t s q Hd) as [E1 E2]. unfold market_of. cbn [fst]. rewrite E1, E2.
    destruct (H _ _ (In_scaled t s q i c Hd Hw)) as [_ [_ H3]]. rewrite <- H3 by lra.
    destruct (pick_some (scaled order) 0 (u n) (scaled_nonneg order T)) as [[[[t2 i2] [j b]] w] Ep]; [rewrite scaled_sum by exact T; lra|].
    rewrite Ep. cbn [row_of option_map fst]. rewrite describes_label by exact Hw. split; intro Q; congruence.
  - intros M u rows n r E Hr Hu. rewrite simulate_is in E. destruct (Req_EM_T (total_mass order) 0) as [Tz|Tz]; [discriminate|].
    injection E as <-. apply nth_map_seq in Hr. subst r.
    destruct (pick_some (scaled order) 0 (u n) (scaled_nonneg order T)) as [[[[t2 i2] [j b]] w] Ep]; [rewrite scaled_sum by exact T; lra|].
    rewrite Ep. apply pick_in in Ep. destruct Ep as [Ep Pw]. cbn [snd] in Pw. unfold scaled in Ep. apply in_map_iff in Ep.
    destruct Ep as [[x v] [E Hx]]. cbn [fst snd] in E. injection E as -> <-. apply entry_in in Hx.
    destruct Hx as (t & s & q & i & c & Hd & Hw & Ex & ->). exists (t, s, q), i, c. split; [exact Hd|]. split; [exact Hw|]. split.
    + destruct (Rle_lt_or_eq_dec _ _ (mass_nonneg (t, s, q) i c)) as [L|L]; [exact L|]. exfalso. apply Pw. rewrite <- L. unfold Rdiv. ring.
    + cbn [row_of]. rewrite describes_label by exact Hw. exact Ex.
Qed.

(** The mean of values over the law is the micro moment part. *)
Lemma law_mean order lo hi : drawn_from order lo hi ->
  sum_over order (fun d => let '(t, s, _) := d in survey_sum s (fun i c => (hi t i c - lo t i c) * s_value s i c))
  = surveys_part (map (fun d => (snd (fst d), snd d)) order).
Proof.
  intro L. unfold surveys_part. rewrite !so_map. cbn [fst snd].
  match goal with |- _ = _ / ?y => assert (E1 : y = total_mass order) end.
  { unfold total_mass. apply so_ext. intros [[t s] q] _. cbn [fst snd]. unfold survey_denominator, survey_sum. apply sumn_ext. intros i _.
    apply so_ext. intros c _. apply mass_is. }
  rewrite E1. unfold Rdiv. rewrite <- so_scal_r. apply so_ext. intros [[t s] q] Hd. cbn [fst snd]. unfold survey_numerator, survey_sum.
  rewrite <- sumn_scal_r. apply sumn_ext. intros i Hi. rewrite <- so_scal_r. apply so_ext. intros c Hc.
  rewrite (mass_is t). assert (Q := df_length _ _ _ L (t, s, q) i c Hd (conj Hi Hc)). unfold market_of in Q. cbn [fst] in Q. rewrite Q. unfold Rdiv. ring.
Qed.

(** The order of markets does not matter for lengths of intervals. *)
Lemma total_permuted order order2 : Permutation order order2 -> total_mass order = total_mass order2.
Proof. intro P. unfold total_mass. apply so_perm, P. Qed.
Lemma law_permuted order order2 lo hi lo2 hi2 : Permutation order order2 -> drawn_from order lo hi -> drawn_from order2 lo2 hi2 ->
  forall d i c, In d order -> within d i c ->
  hi (market_of d) i c - lo (market_of d) i c = hi2 (market_of d) i c - lo2 (market_of d) i c.
Proof.
  intros P L L2 d i c Hd Hw. rewrite (df_length _ _ _ L d i c Hd Hw), (df_length _ _ _ L2 d i c (Permutation_in _ P Hd) Hw), (total_permuted _ _ P). reflexivity.
Qed.

(** ** Order of markets *)
Lemma default_order it1 it2 ids1 ids2 : (forall t, In t ids1 <-> In t ids2) -> market_order it1 ids1 None = market_order it2 ids2 None.
Proof. intro H. cbn [market_order]. apply PrimProofs.unique_same, H. Qed.

(** Two markets, each with one agent and one product. *)
Definition lone_survey : survey := mk_survey (Two false) 1 1 (fun _ => 1) (fun _ _ => 1) (fun _ _ => 0).
Definition lone_economy (t : Z) : survey * (nat -> cell -> R) := (lone_survey, fun _ _ => / 2).
Lemma lone_total order : total_mass (map (fun t => (t, fst (lone_economy t), snd (lone_economy t))) order) = INR (List.length order) / 2.
Proof.
  unfold total_mass. rewrite so_map. induction order as [|t order IH]; [cbn; field|]. cbn [sum_over]. rewrite IH. change (List.length (t :: order)) with (S (List.length order)).
  rewrite S_INR. cbn -[INR]. rewrite Rmax_right by lra. field.
Qed.
Lemma lone_first t order : simulated lone_economy (t :: order) 1 (fun _ => 0) = Some [mk_drawn 0 t 0 0 None].
Proof.
  unfold simulated. rewrite simulate_is. assert (E := lone_total (t :: order)).
  set (l := map (fun t => (t, fst (lone_economy t), snd (lone_economy t))) (t :: order)) in *.
  assert (P : 0 < INR (List.length (t :: order))) by (apply lt_0_INR; cbn; lia).
  destruct (Req_EM_T (total_mass l) 0) as [Q|Q]; [lra|]. f_equal. cbn [seq map]. f_equal. unfold pick. rewrite scaled_kept by exact Q.
  assert (K : kept (all_entries l) = ((t, O, (O, None)), / 2) :: kept (all_entries (map (fun t => (t, fst (lone_economy t), snd (lone_economy t))) order))).
  { unfold l, kept. cbn [map all_entries flat_map entry_list lone_economy fst snd lone_survey s_I s_J s_shape seq cells options_of app filter cell_index choice_index].
    unfold survey_weight. cbn [s_weight s_agent_weight lone_survey]. rewrite truncate_max, Rmax_right by lra.
    rewrite (proj2 (is_nonzero_spec _)) by lra. f_equal. f_equal. lra. }
  rewrite K. cbn [map fst snd cumsum searchsorted_right]. destruct (Rlt_dec 0 (0 + / 2 / total_mass l)) as [_|Z0]; [reflexivity|].
  exfalso. apply Z0. rewrite Rplus_0_l, E. unfold Rdiv. apply Rmult_lt_0_compat; [lra|]. apply Rinv_0_lt_compat. lra.
Qed.

(** ** Choice indices *)
Lemma take_column_nonneg {A} (columns : list A) j : (0 <= j)%Z -> take_column columns j = nth_error columns (Z.to_nat j).
Proof.
  intro H. unfold take_column. destruct (Z.leb_spec 0 j); [|lia]. cbn [andb]. destruct (Z.ltb_spec j (Z.of_nat (List.length columns))); [reflexivity|].
  destruct (Z.ltb_spec j 0); [lia|]. rewrite andb_false_r. symmetry. apply nth_error_None. lia.
Qed.
Lemma take_column_range {A} (columns : list A) j : take_column columns j <> None <-> (- Z.of_nat (List.length columns) <= j < Z.of_nat (List.length columns))%Z.
Proof.
  unfold take_column. destruct (Z.leb_spec 0 j), (Z.ltb_spec j (Z.of_nat (List.length columns))); cbn [andb].
  - rewrite nth_error_Some. lia.
  - destruct (Z.ltb_spec j 0); [lia|]. rewrite andb_false_r. split; [congruence|lia].
  - destruct (Z.ltb_spec j 0); [|lia]. rewrite andb_true_r. destruct (Z.leb_spec (- Z.of_nat (List.length columns)) j).
    + rewrite nth_error_Some. lia.
    + split; [congruence|lia].
  - lia.
Qed.

(** ** Lists of micro moments *)
Lemma first_error_none {A B} (f : A -> option B) l : first_error f l = None <-> forall a, In a l -> f a = None.
Proof.
  induction l as [|a l IH]; cbn [first_error]; [split; [intros _ a []|reflexivity]|]. destruct (f a) eqn:E.
  - split; [discriminate|]. intro H. rewrite (H a (or_introl eq_refl)) in E. discriminate.
  - rewrite IH. split; intros H b Hb; [destruct Hb as [<-|Hb]; [exact E|exact (H b Hb)]|apply H; right; exact Hb].
Qed.
Lemma check_earlier_none {A B} (f : A -> A -> option B) l : forall earlier, check_earlier f earlier l = None <->
  forall l1 a l2, l = l1 ++ a :: l2 -> forall b, In b (earlier ++ l1) -> f a b = None.
Proof.
  induction l as [|x l IH]; intro earlier; cbn [check_earlier].
  - split; [|reflexivity]. intros _ l1 a l2 E. destruct l1; discriminate.
  - destruct (first_error (f x) earlier) as [err|] eqn:E.
    + split; [discriminate|]. intro H. assert (Q : first_error (f x) earlier = None); [|congruence]. apply first_error_none.
      intros b Hb. apply (H [] x l eq_refl). rewrite app_nil_r. exact Hb.
    + rewrite IH. rewrite first_error_none in E. split.
      * intros H [|y l1] a l2 El b Hb; cbn [app] in El; injection El as -> ->; [rewrite app_nil_r in Hb; exact (E b Hb)|].
        apply (H l1 a l2 eq_refl). rewrite <- app_assoc. exact Hb.
      * intros H l1 a l2 -> b Hb. apply (H (x :: l1) a l2 eq_refl). rewrite <- app_assoc in Hb. exact Hb.
Qed.
(** Symmetric checks compare all pairs of positions. *)
Lemma check_earlier_pairs {A B} (f : A -> A -> option B) l : (forall a b, f a b = None -> f b a = None) ->
  (check_earlier f [] l = None <-> forall i j a b, nth_error l i = Some a -> nth_error l j = Some b -> i <> j -> f a b = None).
Proof.
  intro Sy. rewrite check_earlier_none. cbn [app]. split.
  - intro H. assert (W : forall i j a b, nth_error l i = Some a -> nth_error l j = Some b -> (j < i)%nat -> f a b = None).
    { intros i j a b Hi Hj L. destruct (nth_error_split l i Hi) as (l1 & l2 & -> & El). apply (H l1 a l2 eq_refl).
      rewrite nth_error_app1 in Hj by lia. exact (nth_error_In _ _ Hj). }
    intros i j a b Hi Hj N. destruct (Nat.lt_total i j) as [L|[L|L]]; [|contradiction|exact (W i j a b Hi Hj L)].
    apply Sy. exact (W j i b a Hj Hi L).
  - intros H l1 a l2 -> b Hb. apply In_nth_error in Hb. destruct Hb as [j Hj].
    assert (Lj : (j < List.length l1)%nat) by (apply nth_error_Some; congruence).
    apply (H (List.length l1) j).
    + rewrite nth_error_app2, Nat.sub_diag by lia. reflexivity.
    + rewrite nth_error_app1 by exact Lj. exact Hj.
    + lia.
Qed.

Lemma check_moments_none m m2 : check_moments m m2 = None <-> mm_id m <> mm_id m2 /\ mm_name m <> mm_name m2.
Proof.
  unfold check_moments. destruct (Nat.eqb_spec (mm_id m) (mm_id m2)); [split; [discriminate|tauto]|].
  destruct (String.eqb_spec (mm_name m) (mm_name m2)); split; try discriminate; tauto.
Qed.
Lemma check_pair_none twice p p2 : check_pair twice p p2 = None <->
  (twice = true -> p_id p <> p_id p2) /\ p_name p <> p_name p2 /\
  (ds_name (p_dataset p) = ds_name (p_dataset p2) -> ds_id (p_dataset p) = ds_id (p_dataset p2)).
Proof.
  unfold check_pair. destruct (Nat.eqb_spec (p_id p) (p_id p2)) as [E|E].
  - destruct twice; cbn [andb]; [split; [discriminate|tauto]|].
    destruct (String.eqb_spec (p_name p) (p_name p2)); [split; [discriminate|tauto]|].
    destruct (Nat.eqb_spec (ds_id (p_dataset p)) (ds_id (p_dataset p2))), (String.eqb_spec (ds_name (p_dataset p)) (ds_name (p_dataset p2)));
      cbn [negb andb]; split; try discriminate; try tauto; intros _; repeat split; try discriminate; try assumption; tauto.
  - rewrite andb_false_r. destruct (String.eqb_spec (p_name p) (p_name p2)); [split; [discriminate|tauto]|].
    destruct (Nat.eqb_spec (ds_id (p_dataset p)) (ds_id (p_dataset p2))), (String.eqb_spec (ds_name (p_dataset p)) (ds_name (p_dataset p2)));
      cbn [negb andb]; split; try discriminate; try tauto; intros _; repeat split; try assumption; tauto.
Qed.
Lemma check_pair_sym twice p p2 : check_pair twice p p2 = None -> check_pair twice p2 p = None.
Proof. rewrite !check_pair_none. intros (H1 & H2 & H3). repeat split; [intro E; specialize (H1 E); congruence|congruence|intro E; symmetry; auto]. Qed.
Lemma check_moments_sym m m2 : check_moments m m2 = None -> check_moments m2 m = None.
Proof. rewrite !check_moments_none. intros [H H2]. split; congruence. Qed.

(** Collecting parts. *)
Lemma collect_cases parts p : (collect parts p = parts /\ exists q, In q parts /\ p_id q = p_id p) \/
  (collect parts p = parts ++ [p] /\ forall q, In q parts -> p_id q <> p_id p).
Proof.
  unfold collect. destruct (existsb (fun q => Nat.eqb (p_id p) (p_id q)) parts) eqn:E; [left|right]; split; try reflexivity.
  - apply existsb_exists in E. destruct E as [q [Hq E]]. apply Nat.eqb_eq in E. exists q. auto.
  - intros q Hq Q. assert (X : existsb (fun q => Nat.eqb (p_id p) (p_id q)) parts = true); [|congruence].
    apply existsb_exists. exists q. split; [exact Hq|]. apply Nat.eqb_eq. auto.
Qed.
Lemma collect_all l : forall acc, (forall p p2, In p (acc ++ l) -> In p2 (acc ++ l) -> p_id p = p_id p2 -> p = p2) -> NoDup (map p_id acc) ->
  NoDup (map p_id (fold_left collect l acc)) /\ forall p, In p (fold_left collect l acc) <-> In p acc \/ In p l.
Proof.
  induction l as [|x l IH]; intros acc I N; cbn [fold_left]; [split; [exact N|intro p; cbn [In]; tauto]|].
  destruct (collect_cases acc x) as [[-> [q [Hq E]]]|[-> H]].
  - assert (x = q) as <-. { apply I; [apply in_or_app; right; left; reflexivity|apply in_or_app; left; exact Hq|congruence]. }
    destruct (IH acc) as [IH1 IH2]; [|exact N|].
    + intros p p2 Hp Hp2. apply I; (apply in_app_or in Hp, Hp2; apply in_or_app; cbn [In]; tauto).
    + split; [exact IH1|]. intro p. rewrite IH2. cbn [In]. split; [tauto|]. intros [Hp|[<-|Hp]]; tauto.
  - destruct (IH (acc ++ [x])) as [IH1 IH2].
    + intros p p2 Hp Hp2. rewrite <- app_assoc in Hp, Hp2. apply I; assumption.
    + rewrite map_app. cbn [map]. apply NoDup_Add with (a := p_id x) (l := map p_id acc); [|split; [exact N|]].
      * replace (map p_id acc) with (map p_id acc ++ []) at 1 by apply app_nil_r. apply Add_app.
      * intro Q. apply in_map_iff in Q. destruct Q as [q [E Hq]]. exact (H q Hq E).
    + split; [exact IH1|]. intro p. rewrite IH2, in_app_iff. cbn [In]. tauto.
Qed.

Section Moments.
  Variable moments : list moment.
  Hypothesis I : identified moments.
  Let parts := fold_left collect (flat_map mm_parts moments) [].
  Lemma used_in p : In p (flat_map mm_parts moments) <-> used moments p.
  Proof using. apply in_flat_map. Qed.
  Lemma used_same p p2 : used moments p -> used moments p2 -> p_id p = p_id p2 -> p = p2.
  Proof using I. intros [m [Hm Hp]] [m2 [Hm2 Hp2]]. exact (id_parts _ I m m2 p p2 Hm Hm2 Hp Hp2). Qed.
  Lemma used_dataset p p2 : used moments p -> used moments p2 -> ds_id (p_dataset p) = ds_id (p_dataset p2) -> p_dataset p = p_dataset p2.
  Proof using I. intros [m [Hm Hp]] [m2 [Hm2 Hp2]]. exact (id_datasets _ I m m2 p p2 Hm Hm2 Hp Hp2). Qed.
  Lemma parts_spec : NoDup (map p_id parts) /\ forall p, In p parts <-> used moments p.
  Proof using I.
    destruct (collect_all (flat_map mm_parts moments) []) as [H1 H2].
    - cbn [app]. intros p p2 Hp Hp2. apply used_same; apply used_in; assumption.
    - constructor.
    - split; [exact H1|]. intro p. unfold parts. rewrite H2, used_in. cbn [In]. tauto.
  Qed.
  Lemma register_parts l : register moments = inr l -> l = parts.
  Proof using.
    unfold register. destruct (check_earlier check_moments [] moments); [discriminate|]. fold parts.
    destruct (check_earlier (check_pair false) [] parts); [discriminate|]. intro E. injection E as <-. reflexivity.
  Qed.
  Lemma register_accepts : (exists l, register moments = inr l) <-> told_apart moments.
  Proof using I.
    destruct parts_spec as [P1 P2].
    assert (Q1 := check_earlier_pairs check_moments moments check_moments_sym).
    assert (Q2 := check_earlier_pairs (check_pair false) parts (check_pair_sym false)).
    assert (R : (exists l, register moments = inr l) <-> check_earlier check_moments [] moments = None /\ check_earlier (check_pair false) [] parts = None).
    { unfold register. fold parts. destruct (check_earlier check_moments [] moments); [split; [intros [l E]; discriminate|intros [E _]; discriminate]|].
      destruct (check_earlier (check_pair false) [] parts); [split; [intros [l E]; discriminate|intros [_ E]; discriminate]|].
      split; [auto|]. intros _. eexists. reflexivity. }
    rewrite R, Q1, Q2. clear R Q1 Q2. split.
    - intros [H1 H2].
      assert (H3 : forall p p2, used moments p -> used moments p2 -> p = p2 \/ check_pair false p p2 = None).
      { intros p p2 Hp Hp2. apply P2 in Hp, Hp2. apply In_nth_error in Hp, Hp2. destruct Hp as [i Hi], Hp2 as [j Hj].
        destruct (Nat.eq_dec i j) as [<-|N]; [left; congruence|right; exact (H2 i j p p2 Hi Hj N)]. }
      constructor.
      + intros i j a b Hi Hj N. apply (proj1 (check_moments_none a b)), (H1 i j); assumption.
      + intros i j a b Hi Hj N. apply (proj1 (check_moments_none a b)), (H1 i j); assumption.
      + intros p p2 Hp Hp2 E. destruct (H3 p p2 Hp Hp2) as [Q|Q]; [exact Q|]. apply check_pair_none in Q. tauto.
      + intros p p2 Hp Hp2 E. destruct (H3 p p2 Hp Hp2) as [->|Q]; [reflexivity|]. apply check_pair_none in Q.
        apply used_dataset; [exact Hp|exact Hp2|]. tauto.
    - intros [T1 T2 T3 T4]. split.
      + intros i j a b Hi Hj N. apply check_moments_none. split; [exact (T1 i j a b Hi Hj N)|exact (T2 i j a b Hi Hj N)].
      + intros i j a b Hi Hj N. assert (Ha := proj1 (P2 a) (nth_error_In _ _ Hi)). assert (Hb := proj1 (P2 b) (nth_error_In _ _ Hj)).
        apply check_pair_none. split; [discriminate|]. split.
        * intro E. apply N. assert (a = b) as <- by (apply T3; assumption).
          apply (proj1 (NoDup_nth_error (map p_id parts)) P1).
          -- rewrite map_length. apply nth_error_Some. congruence.
          -- rewrite !nth_error_map, Hi, Hj. reflexivity.
        * intro E. rewrite (T4 a b Ha Hb E). reflexivity.
  Qed.
  Lemma index_of_spec (v : part -> R) l p : In p l -> (forall q, In q l -> p_id p = p_id q -> p = q) -> nth (index_of p l) (map v l) 0 = v p.
  Proof using.
    induction l as [|q l IH]; intros H E; [contradiction H|]. cbn [index_of]. destruct (Nat.eqb_spec (p_id p) (p_id q)) as [Q|Q].
    - rewrite (E q (or_introl eq_refl) Q). reflexivity.
    - cbn [map nth]. apply IH; [destruct H as [->|H]; [congruence|exact H]|]. intros r Hr. apply E. right. exact Hr.
  Qed.
  Lemma evaluates l v m : register moments = inr l -> In m moments -> moment_value l (map v l) m = mm_value m (map v (mm_parts m)).
  Proof using I.
    intros E Hm. apply register_parts in E. subst l. unfold moment_value. f_equal. apply map_ext_in. intros p Hp.
    assert (U : used moments p) by (exists m; auto). destruct parts_spec as [_ P2]. apply index_of_spec; [apply P2, U|].
    intros q Hq. apply used_same; [exact U|apply P2, Hq].
  Qed.
End Moments.

Lemma check_moment_spec m : check_moment m = None <-> distinct p_id (mm_parts m) /\ distinct p_name (mm_parts m) /\
  forall p p2, In p (mm_parts m) -> In p2 (mm_parts m) -> ds_name (p_dataset p) = ds_name (p_dataset p2) -> ds_id (p_dataset p) = ds_id (p_dataset p2).
Proof.
  unfold check_moment. rewrite (check_earlier_pairs (check_pair true) (mm_parts m) (check_pair_sym true)). split.
  - intro H. split; [|split].
    + intros i j a b Hi Hj N. apply (proj1 (check_pair_none true a b) (H i j a b Hi Hj N)). reflexivity.
    + intros i j a b Hi Hj N. apply (proj1 (check_pair_none true a b) (H i j a b Hi Hj N)).
    + intros p p2 Hp Hp2. apply In_nth_error in Hp, Hp2. destruct Hp as [i Hi], Hp2 as [j Hj].
      destruct (Nat.eq_dec i j) as [<-|N]; [intros _; congruence|]. apply (proj1 (check_pair_none true p p2) (H i j p p2 Hi Hj N)).
  - intros (H1 & H2 & H3) i j a b Hi Hj N. apply check_pair_none. split; [intros _; exact (H1 i j a b Hi Hj N)|].
    split; [exact (H2 i j a b Hi Hj N)|]. apply H3; eapply nth_error_In; eassumption.
Qed.

(** The default function of one part and its gradient. *)
Lemma default_gradient : gradient_of 1 default_compute_value default_compute_gradient.
Proof.
  intros v dv t H. unfold default_compute_value, default_compute_gradient. cbn [sumn].
  replace (0 + 1 * dv O) with (dv O) by ring. apply H. lia.
Qed.

(** ** Scores *)

(** A nonnegative function that is zero at a point has no slope there. *)
Lemma flat_at_zero (f : R -> R) t d r : 0 < r -> (forall x, Rabs (x - t) < r -> 0 <= f x) -> f t = 0 -> derivable_pt_lim f t d -> d = 0.
Proof.
  intros Hr P Z D. destruct (Req_dec d 0) as [|N]; [assumption|]. exfalso.
  assert (A : 0 < Rabs d) by (apply Rabs_pos_lt, N). destruct (D (Rabs d / 2) ltac:(lra)) as [del H]. assert (Pd := cond_pos del).
  set (e := Rmin del r / 2). assert (Pe : 0 < e < Rmin del r). { assert (0 < Rmin del r) by (apply Rmin_glb_lt; assumption). unfold e. lra. }
  assert (L1 := Rmin_l del r). assert (L2 := Rmin_r del r).
  destruct (Rlt_dec d 0) as [Nd|Nd].
  - assert (Q := H e ltac:(lra) ltac:(rewrite Rabs_right; lra)). rewrite Z in Q. assert (F := P (t + e) ltac:(replace (t + e - t) with e by ring; rewrite Rabs_right; lra)).
    assert (G : 0 <= (f (t + e) - 0) / e). { unfold Rdiv. apply Rmult_le_pos; [lra|]. left. apply Rinv_0_lt_compat. lra. }
    rewrite (Rabs_left d) in * by exact Nd. apply Rabs_def2 in Q. lra.
  - assert (Q := H (- e) ltac:(lra) ltac:(rewrite Rabs_left; lra)). rewrite Z in Q. assert (F := P (t + - e) ltac:(replace (t + - e - t) with (- e) by ring; rewrite Rabs_left; lra)).
    assert (G : (f (t + - e) - 0) / - e <= 0).
    { replace ((f (t + - e) - 0) / - e) with (- (f (t + - e) * / e)) by (field; lra). assert (0 <= f (t + - e) * / e); [|lra].
      apply Rmult_le_pos; [exact F|]. left. apply Rinv_0_lt_compat. lra. }
    rewrite (Rabs_right d) in * by lra. apply Rabs_def2 in Q. lra.
Qed.

Lemma survey_sum_ext s f g : (forall i c, (i < s_I s)%nat -> In c (cells (s_shape s) (s_J s)) -> f i c = g i c) -> survey_sum s f = survey_sum s g.
Proof. intro H. unfold survey_sum. apply sumn_ext. intros i Hi. apply so_ext. intros c Hc. apply H; assumption. Qed.
Lemma survey_sum_minus s f g : survey_sum s (fun i c => f i c - g i c) = survey_sum s f - survey_sum s g.
Proof. unfold survey_sum. rewrite <- sumn_minus. apply sumn_ext. intros i _. apply so_minus. Qed.
Lemma survey_sum_plus s f g : survey_sum s (fun i c => f i c + g i c) = survey_sum s f + survey_sum s g.
Proof. unfold survey_sum. rewrite <- sumn_plus. apply sumn_ext. intros i _. apply so_plus. Qed.
Lemma survey_sum_scal s x f : survey_sum s (fun i c => x * f i c) = x * survey_sum s f.
Proof. unfold survey_sum. rewrite <- sumn_scal. apply sumn_ext. intros i _. apply so_scal. Qed.

Section OneSurvey.
  Variables (t : R) (s : survey) (qp : R -> nat -> cell -> R) (q dq : nat -> cell -> R).
  Hypothesis S : smooth_cells t s qp dq.
  Hypothesis Q : qp t = q.
  Lemma q_nonneg i c : (i < s_I s)%nat -> In c (cells (s_shape s) (s_J s)) -> 0 <= q i c.
  Proof using S Q.
    intros Hi Hc. destruct (sc_near _ _ _ _ S) as [r [Hr H]]. rewrite <- Q.
    apply (H t ltac:(rewrite Rminus_diag_eq, Rabs_R0 by reflexivity; exact Hr) i Hi), (NestProofs.cells_are (s_shape s)), Hc.
  Qed.
  Lemma q_flat i c : (i < s_I s)%nat -> In c (cells (s_shape s) (s_J s)) -> q i c = 0 -> dq i c = 0.
  Proof using S Q.
    intros Hi Hc Z. apply NestProofs.cells_are in Hc. destruct (sc_near _ _ _ _ S) as [r [Hr H]].
    apply (flat_at_zero (fun x => qp x i c) t _ r Hr); [|rewrite Q; exact Z|apply (sc_deriv _ _ _ _ S); assumption].
    intros x Hx. apply (H x Hx i Hi), Hc.
  Qed.
  Lemma weight_is i c : (i < s_I s)%nat -> In c (cells (s_shape s) (s_J s)) -> survey_weight s q i c = s_weight s i c * s_agent_weight s i * q i c.
  Proof using S Q.
    intros Hi Hc. unfold survey_weight. apply truncate_nonneg.
    apply Rmult_le_pos; [apply Rmult_le_pos; [apply (sc_weights _ _ _ _ S)|apply (sc_agents _ _ _ _ S), Hi]|apply q_nonneg; assumption].
  Qed.
  Lemma score_is l i c : (i < s_I s)%nat -> In c (cells (s_shape s) (s_J s)) ->
    (s_weight s i c * q i c = 0 /\ s_weight s i c * dq i c = 0 /\ agent_score l s q dq i c = None) \/
    (s_weight s i c * q i c <> 0 /\
     agent_score l s q dq i c = Some (s_weight s i c * dq i c / (s_weight s i c * q i c) - score_denominator_jacobian l / score_denominator l)).
  Proof using S Q.
    intros Hi Hc. assert (W := sc_weights _ _ _ _ S i c). assert (P := q_nonneg i c Hi Hc). unfold agent_score. cbv zeta.
    rewrite !Rmult_1_r, truncate_nonneg by (apply Rmult_le_pos; assumption).
    destruct (Req_EM_T (s_weight s i c * q i c) 0) as [E|E]; [left|right; split; [exact E|reflexivity]].
    split; [exact E|]. split; [|reflexivity]. apply Rmult_integral in E. destruct E as [E|E]; [rewrite E; ring|].
    rewrite (q_flat i c Hi Hc E). ring.
  Qed.
  (** Tangents of weights are weights times scores, up to the mean. *)
  Lemma score_times l i c : (i < s_I s)%nat -> In c (cells (s_shape s) (s_J s)) ->
    s_weight s i c * s_agent_weight s i * dq i c =
    s_weight s i c * s_agent_weight s i * q i c * or_zero (agent_score l s q dq i c)
    + score_denominator_jacobian l / score_denominator l * (s_weight s i c * s_agent_weight s i * q i c).
  Proof using S Q.
    intros Hi Hc. destruct (score_is l i c Hi Hc) as [(E1 & E2 & ->)|[E ->]]; cbn [or_zero].
    - replace (s_weight s i c * s_agent_weight s i * dq i c) with (s_agent_weight s i * (s_weight s i c * dq i c)) by ring.
      replace (s_weight s i c * s_agent_weight s i * q i c) with (s_agent_weight s i * (s_weight s i c * q i c)) by ring.
      rewrite E1, E2. ring.
    - assert (N : s_weight s i c <> 0 /\ q i c <> 0) by (split; intro Z; apply E; rewrite Z; ring). set (k := score_denominator_jacobian l / score_denominator l).
      field. tauto.
  Qed.
  Lemma denominator_jacobian_is : survey_denominator_jacobian s dq = survey_sum s (fun i c => s_weight s i c * s_agent_weight s i * dq i c).
  Proof using S. unfold survey_denominator_jacobian. destruct (survey_constant s) eqn:E; [|reflexivity]. symmetry. exact (NestProofs.constant_cells t s qp dq S E). Qed.
  Lemma denominator_is : survey_denominator s q = survey_sum s (fun i c => s_weight s i c * s_agent_weight s i * q i c).
  Proof using S Q. unfold survey_denominator. apply survey_sum_ext. exact weight_is. Qed.
  (** A value that equals the score where it exists can replace it in a weighted sum. *)
  Lemma value_times l i c v : (forall x, agent_score l s q dq i c = Some x -> v = x) -> (i < s_I s)%nat -> In c (cells (s_shape s) (s_J s)) ->
    s_weight s i c * s_agent_weight s i * q i c * v = s_weight s i c * s_agent_weight s i * q i c * or_zero (agent_score l s q dq i c).
  Proof using S Q.
    intros V Hi Hc. destruct (score_is l i c Hi Hc) as [(E1 & _ & _)|[_ E]]; [|rewrite (V _ E), E; reflexivity].
    replace (s_weight s i c * s_agent_weight s i * q i c) with (s_agent_weight s i * (s_weight s i c * q i c)) by ring. rewrite E1. ring.
  Qed.
End OneSurvey.

Section Scores.
  (** Two parameters: their curves at [t] and [t2] pass through the same probabilities. *)
  Variables (t t2 : R) (ds : list (survey * (R -> nat -> cell -> R) * (nat -> cell -> R) * (R -> nat -> cell -> R) * (nat -> cell -> R))).
  Notation first_family := (first_family ds t).
  Notation second_family := (second_family ds t2).
  Notation both_families := (both_families ds t).
  Hypothesis S : forall s qp dq qp2 dq2, In (s, qp, dq, qp2, dq2) ds ->
    smooth_cells t s qp dq /\ smooth_cells t2 s qp2 dq2 /\ qp t = qp2 t2 /\ valued_by_scores first_family s (qp t) dq.
  Hypothesis D : score_denominator first_family <> 0.

  Lemma same_denominators : score_denominator second_family = score_denominator first_family.
  Proof using S.
    unfold score_denominator, DrawSpec.first_family, DrawSpec.second_family. rewrite !so_map. apply so_ext. intros [[[[s qp] dq] qp2] dq2] H. cbn [fst snd].
    destruct (S _ _ _ _ _ H) as (_ & _ & -> & _). reflexivity.
  Qed.
  Notation w s q := (fun i c => s_weight s i c * s_agent_weight s i * q i c).
  Lemma score_mean : sum_over ds (fun d => let '(s, qp, dq, _, _) := d in
    survey_sum s (fun i c => s_weight s i c * s_agent_weight s i * qp t i c * or_zero (agent_score first_family s (qp t) dq i c))) = 0.
  Proof using S D.
    set (k := score_denominator_jacobian first_family / score_denominator first_family).
    transitivity (score_denominator_jacobian first_family - k * score_denominator first_family); [|unfold k; field; exact D].
    unfold score_denominator_jacobian at 1, score_denominator, DrawSpec.first_family at 2 3. rewrite !so_map, <- so_scal, <- so_minus. apply so_ext.
    intros [[[[s qp] dq] qp2] dq2] H. cbn [fst snd]. destruct (S _ _ _ _ _ H) as (S1 & _ & _ & _).
    rewrite (denominator_jacobian_is t s qp dq S1), (denominator_is t s qp (qp t) dq S1 eq_refl), <- survey_sum_scal, <- survey_sum_minus.
    apply survey_sum_ext. intros i c Hi Hc. rewrite (score_times t s qp (qp t) dq S1 eq_refl first_family i c Hi Hc). fold k. ring.
  Qed.
  Lemma score_part_zero : surveys_part (map fst first_family) = 0.
  Proof using S D.
    unfold surveys_part. match goal with |- ?x / _ = 0 => assert (E : x = 0) end; [|rewrite E; unfold Rdiv; ring].
    unfold DrawSpec.first_family. rewrite !so_map. rewrite <- score_mean. apply so_ext. intros [[[[s qp] dq] qp2] dq2] H. cbn [fst snd].
    destruct (S _ _ _ _ _ H) as (S1 & _ & _ & V). unfold survey_numerator. apply survey_sum_ext. intros i c Hi Hc.
    rewrite (weight_is t s qp (qp t) dq S1 eq_refl i c Hi Hc). apply (value_times t s qp (qp t) dq S1 eq_refl first_family i c); [|exact Hi|exact Hc].
    intros x Ex. exact (V i c x Hi Hc Ex).
  Qed.
  Lemma parts_same : map fst second_family = map fst first_family.
  Proof using S.
    unfold DrawSpec.first_family, DrawSpec.second_family. rewrite !map_map. apply map_ext_in. intros [[[[s qp] dq] qp2] dq2] H. cbn [fst].
    destruct (S _ _ _ _ _ H) as (_ & _ & -> & _). reflexivity.
  Qed.
  Lemma score_jacobian : surveys_part_jacobian second_family = information first_family second_family both_families.
  Proof using S D.
    unfold surveys_part_jacobian. rewrite parts_same, score_part_zero. unfold information.
    set (k2 := score_denominator_jacobian second_family / score_denominator second_family).
    f_equal; [|f_equal].
    - unfold DrawSpec.second_family at 1, DrawSpec.both_families at 1. rewrite !so_map, Rmult_0_l, Rminus_0_r.
      rewrite <- (Rplus_0_r (sum_over ds _)) at 1.
      transitivity (sum_over ds (fun d => let '(s, qp, dq, _, dq2) := d in
        survey_sum s (fun i c => s_weight s i c * s_agent_weight s i * qp t i c * or_zero (agent_score first_family s (qp t) dq i c) * or_zero (agent_score second_family s (qp t) dq2 i c)))
        + k2 * sum_over ds (fun d => let '(s, qp, dq, _, _) := d in
            survey_sum s (fun i c => s_weight s i c * s_agent_weight s i * qp t i c * or_zero (agent_score first_family s (qp t) dq i c)))).
      + rewrite Rplus_0_r, <- so_scal, <- so_plus. apply so_ext. intros [[[[s qp] dq] qp2] dq2] H. cbn [fst snd].
        destruct (S _ _ _ _ _ H) as (S1 & S2 & Eq & V). unfold survey_numerator_jacobian. rewrite <- survey_sum_scal, <- survey_sum_plus.
        apply survey_sum_ext. intros i c Hi Hc. rewrite (score_times t2 s qp2 (qp t) dq2 S2 (eq_sym Eq) second_family i c Hi Hc). fold k2.
        assert (Vt := value_times t s qp (qp t) dq S1 eq_refl first_family i c (s_value s i c) (fun x Ex => V i c x Hi Hc Ex) Hi Hc).
        transitivity (s_weight s i c * s_agent_weight s i * qp t i c * s_value s i c * (or_zero (agent_score second_family s (qp t) dq2 i c) + k2)); [ring|].
        rewrite Vt. ring.
      + rewrite score_mean. rewrite Rmult_0_r, Rplus_0_r. apply so_ext. intros [[[[s qp] dq] qp2] dq2] _. reflexivity.
    - unfold DrawSpec.second_family, DrawSpec.both_families. rewrite !so_map. apply so_ext. intros [[[[s qp] dq] qp2] dq2] H. cbn [fst snd].
      destruct (S _ _ _ _ _ H) as (S1 & _ & <- & _). exact (denominator_is t s qp (qp t) dq S1 eq_refl).
  Qed.
  Lemma score_part_moves : derivable_pt_lim
    (fun x => surveys_part (map (fun d => let '(s, _, _, qp2, _) := d in (s, qp2 x)) ds)) t2 (information first_family second_family both_families).
  Proof using S D.
    rewrite <- score_jacobian.
    assert (M := NestProofs.part_moves (map (fun d => let '(s, _, _, qp2, dq2) := d in (s, qp2, dq2)) ds) t2).
    rewrite map_map in M.
    assert (E : map (fun d => let '(s, _, _, qp2, dq2) := d in (s, qp2 t2, dq2)) ds
      = map (fun d : survey * (R -> nat -> cell -> R) * (nat -> cell -> R) * (R -> nat -> cell -> R) * (nat -> cell -> R) =>
         (fst (fst (let '(s, _, _, qp2, dq2) := d in (s, qp2, dq2))), snd (fst (let '(s, _, _, qp2, dq2) := d in (s, qp2, dq2))) t2, snd (let '(s, _, _, qp2, dq2) := d in (s, qp2, dq2)))) ds).
    { apply map_ext. intros [[[[s qp] dq] qp2] dq2]. reflexivity. }
    unfold DrawSpec.second_family. rewrite E.
    eapply DemandDeriv.dlim_ext; [|apply M].
    - intro x. cbv beta. rewrite map_map. f_equal. apply map_ext. intros [[[[s qp] dq] qp2] dq2]. reflexivity.
    - intros d Hd. apply in_map_iff in Hd. destruct Hd as [[[[[s qp] dq] qp2] dq2] [<- H]]. cbn [fst snd]. apply (S _ _ _ _ _ H).
    - rewrite so_map. intro Z. apply D. rewrite <- same_denominators, <- Z. unfold score_denominator, DrawSpec.second_family. rewrite so_map.
      apply so_ext. intros [[[[s qp] dq] qp2] dq2] _. reflexivity.
  Qed.
End Scores.

(** Scores are slopes of log likelihoods. *)
Lemma score_log t (l : list (survey * (R -> nat -> cell -> R) * (nat -> cell -> R))) s qp dq i c x :
  (forall d, In d l -> smooth_cells t (fst (fst d)) (snd (fst d)) (snd d)) ->
  In (s, qp, dq) l -> (i < s_I s)%nat -> In c (cells (s_shape s) (s_J s)) ->
  0 < score_denominator (map (fun d => (fst (fst d), snd (fst d) t, snd d)) l) ->
  agent_score (map (fun d => (fst (fst d), snd (fst d) t, snd d)) l) s (qp t) dq i c = Some x ->
  derivable_pt_lim (fun y => ln (s_weight s i c * qp y i c) - ln (score_denominator (map (fun d => (fst (fst d), snd (fst d) y, snd d)) l))) t x.
Proof.
  intros S Hd Hi Hc D E. assert (S1 := S _ Hd). cbn [fst snd] in S1. set (fam := map (fun d => (fst (fst d), snd (fst d) t, snd d)) l) in *.
  destruct (score_is t s qp (qp t) dq S1 eq_refl fam i c Hi Hc) as [(_ & _ & N)|[P Ex]]; [congruence|]. rewrite Ex in E. injection E as <-.
  assert (P0 : 0 < s_weight s i c * qp t i c).
  { assert (0 <= s_weight s i c * qp t i c); [|lra]. apply Rmult_le_pos; [apply (sc_weights _ _ _ _ S1)|apply (q_nonneg t s qp (qp t) dq S1 eq_refl); assumption]. }
  apply (DemandDeriv.dlim_minus (fun y => ln (s_weight s i c * qp y i c))
    (fun y => ln (score_denominator (map (fun d => (fst (fst d), snd (fst d) y, snd d)) l)))).
  - eapply DemandDeriv.dlim_eq; [|apply (DemandDeriv.dlim_ln (fun y => s_weight s i c * qp y i c)); [|exact P0]].
    2:{ apply (DemandDeriv.dlim_scal (s_weight s i c) (fun y => qp y i c)), (sc_deriv _ _ _ _ S1); [exact Hi|]. apply (NestProofs.cells_are (s_shape s)), Hc. }
    field. split; intro Z; apply P; rewrite Z; ring.
  - eapply DemandDeriv.dlim_eq; [|apply (DemandDeriv.dlim_ln (fun y => score_denominator (map (fun d => (fst (fst d), snd (fst d) y, snd d)) l))); [|exact D]].
    2:{ apply (DemandDeriv.dlim_ext (fun y => sum_over l (fun d => survey_denominator (fst (fst d)) (snd (fst d) y)))).
        - intro y. unfold score_denominator. rewrite so_map. reflexivity.
        - apply (so_deriv l (fun d y => survey_denominator (fst (fst d)) (snd (fst d) y))). intros d H. apply NestProofs.denominator_moves, S, H. }
    fold fam. unfold Rdiv. f_equal. unfold score_denominator_jacobian, fam. rewrite so_map. reflexivity.
Qed.
