(** Proofs about demographics. *)
From Coq Require Import Reals List Bool Arith Lia String.
From Verif Require Import Base FltModel DemogModel DemogSpec.
Import ListNotations.

Lemma load_all_some d fb l : (forall n, In n l -> exists c, load d fb n = Some c) ->
  exists m, load_all d fb l = Some m /\ forall n, In n l -> field m n = load d fb n.
Proof.
  induction l as [|n l IH]; intros H.
  - exists []. split; [reflexivity|intros n []].
  - destruct IH as (m & E & Hm); [intros k Hk; apply H; now right|].
    destruct (H n (or_introl eq_refl)) as [c Ec]. exists ((n, c) :: m). cbn. rewrite Ec, E. split; [reflexivity|].
    intros k Hk. cbn. destruct (String.eqb n k) eqn:Q.
    + apply String.eqb_eq in Q. subst. now rewrite Ec.
    + destruct Hk as [<-|Hk]; [rewrite String.eqb_refl in Q; discriminate|]. now apply Hm.
Qed.
Lemma load_all_inv d fb l m : load_all d fb l = Some m -> forall n, In n l -> exists c, load d fb n = Some c.
Proof.
  revert m. induction l as [|n l IH]; intros m E k; [intros []|].
  cbn in E. destruct (load d fb n) as [c|] eqn:Ec; [|discriminate]. destruct (load_all d fb l) as [m'|]; [|discriminate].
  intros [<-|Hk]; [now exists c|]. eapply IH; [reflexivity|exact Hk].
Qed.
Lemma load_all_none d fb l : load_all d fb l = None <-> exists n, In n l /\ load d fb n = None.
Proof.
  induction l as [|n l IH]; cbn.
  - split; [discriminate|intros (n & [] & _)].
  - destruct (load d fb n) as [c|] eqn:Ec.
    + destruct (load_all d fb l) as [m|].
      * split; [discriminate|]. intros (k & [<-|Hk] & E); [congruence|].
        destruct IH as [_ IH]. discriminate IH. exists k. now split.
      * split; [|reflexivity]. intros _. destruct IH as [IH _]. destruct (IH eq_refl) as (k & Hk & E). exists k. split; [now right|exact E].
    + split; [|reflexivity]. intros _. exists n. split; [now left|exact Ec].
Qed.
Lemma nth_default_agrees (f : formulation) k (v v' : string -> flt) : well_formed f -> (forall n, In n (names f) -> v n = v' n) ->
  nth k (columns f) (fun _ => NaN) v = nth k (columns f) (fun _ => NaN) v'.
Proof.
  intros W H. destruct (nth_in_or_default k (columns f) (fun _ => NaN)) as [Hin| ->]; [|reflexivity].
  exact (W _ Hin v v' H).
Qed.
Lemma load_value d fb j i n c : load d fb n = Some c -> (fb = None \/ fb = Some j) -> c i = value d j i n.
Proof.
  unfold load, value. intros E Hf. destruct (field d n) as [c'|]; [now injection E as ->|].
  destruct Hf as [->| ->]; [discriminate|]. now rewrite E.
Qed.
Lemma design_value f d fb j m i k : well_formed f -> load_all d fb (names f) = Some m -> (fb = None \/ fb = Some j) ->
  design f m i k = nth k (columns f) (fun _ => NaN) (value d j i).
Proof.
  intros W E Hf. unfold design. apply nth_default_agrees; [exact W|]. intros n Hn.
  destruct (load_all_some d fb (names f)) as (m' & E' & Hm); [exact (load_all_inv _ _ _ _ E)|].
  rewrite E in E'. injection E' as <-. unfold row. rewrite (Hm n Hn).
  destruct (load_all_inv _ _ _ _ E n Hn) as [c Ec]. rewrite Ec. exact (load_value d fb j i n c Ec Hf).
Qed.

Lemma any_entry_true test I K m : any_entry test I K m = true <-> exists i k, (i < I)%nat /\ (k < K)%nat /\ test (m i k) = true.
Proof.
  unfold any_entry. rewrite existsb_exists. split.
  - intros (i & Hi & H). apply existsb_exists in H. destruct H as (k & Hk & H). apply in_seq in Hi. apply in_seq in Hk.
    exists i, k. repeat split; [lia|lia|exact H].
  - intros (i & k & Hi & Hk & H). exists i. split; [apply in_seq; lia|]. apply existsb_exists. exists k. split; [apply in_seq; lia|exact H].
Qed.
Lemma any_entry_false test I K m : any_entry test I K m = false <-> forall i k, (i < I)%nat -> (k < K)%nat -> test (m i k) = false.
Proof.
  rewrite <- not_true_iff_false, any_entry_true. split.
  - intros H i k Hi Hk. apply not_true_iff_false. intros E. apply H. now exists i, k.
  - intros H (i & k & Hi & Hk & E). rewrite (H i k Hi Hk) in E. discriminate.
Qed.

Lemma build_ignoring f I d j : build_matrix f I d (Some j) true = option_map (design f) (load_all d (Some j) (names f)).
Proof. unfold build_matrix. now destruct (load_all d (Some j) (names f)). Qed.
Lemma load_all_has d fb l : (exists m, load_all d fb l = Some m) <-> forall n, In n l -> exists c, load d fb n = Some c.
Proof.
  split; [intros [m E]; exact (load_all_inv _ _ _ _ E)|]. intros H. destruct (load_all_some d fb l H) as (m & E & _). now exists m.
Qed.
Lemma load_has d j n : (exists c, load d (Some j) n = Some c) <-> has d n \/ has d (indexed n j).
Proof.
  unfold load, has. destruct (field d n) as [c|].
  - split; [intros _; left; now exists c|intros _; now exists c].
  - split; [now right|]. intros [[c E]|H]; [discriminate|exact H].
Qed.
Lemma load_has_none d n : (exists c, load d None n = Some c) <-> has d n.
Proof.
  unfold load, has. destruct (field d n) as [c|]; [reflexivity|]. split; intros [c E]; discriminate.
Qed.

(** The loop. *)
Lemma stack_stacked f I d : forall n j acc l, stack f I d j n acc = Stacked l -> exists l', l = acc ++ l' /\ List.length l' = n /\
  forall k, (k < n)%nat -> exists m, load_all d (Some (j + k)%nat) (names f) = Some m /\ nth k l' (fun _ _ => NaN) = design f m.
Proof.
  induction n as [|n IH]; intros j acc l E; cbn in E.
  - injection E as <-. exists []. rewrite app_nil_r. repeat split; intros; lia.
  - rewrite build_ignoring in E. destruct (load_all d (Some j) (names f)) as [m|] eqn:Em; cbn in E; [|now destruct (Nat.eqb j 0)].
    destruct (IH (S j) _ _ E) as (l' & -> & HL & H). exists (design f m :: l'). rewrite <- app_assoc. repeat split.
    + cbn. now rewrite HL.
    + intros [|k] Hk; [exists m; now rewrite Nat.add_0_r|]. destruct (H k ltac:(lia)) as (m' & E1 & E2). exists m'.
      replace (j + S k)%nat with (S j + k)%nat by lia. now split.
Qed.
Lemma stack_total f I d : forall n j acc, (forall k, (k < n)%nat -> exists m, load_all d (Some (j + k)%nat) (names f) = Some m) ->
  exists l, stack f I d j n acc = Stacked l.
Proof.
  induction n as [|n IH]; intros j acc H; cbn; [now exists acc|].
  rewrite build_ignoring. destruct (H O ltac:(lia)) as [m Em]. rewrite Nat.add_0_r in Em. rewrite Em. cbn. apply IH.
  intros k Hk. destruct (H (S k) ltac:(lia)) as [m' E']. exists m'. now replace (S j + k)%nat with (j + S k)%nat by lia.
Qed.
Lemma stack_fails f I d : forall n j acc k, (k < n)%nat -> (forall k', (k' < k)%nat -> exists m, load_all d (Some (j + k')%nat) (names f) = Some m) ->
  load_all d (Some (j + k)%nat) (names f) = None -> stack f I d j n acc = if Nat.eqb (j + k) 0 then LoadError else MissingProduct (j + k).
Proof.
  induction n as [|n IH]; intros j acc k Hk H E; [lia|]. cbn. rewrite build_ignoring.
  destruct k as [|k].
  - rewrite Nat.add_0_r in *. now rewrite E.
  - destruct (H O ltac:(lia)) as [m Em]. rewrite Nat.add_0_r in Em. rewrite Em. cbn.
    replace (j + S k)%nat with (S j + k)%nat in * by lia. apply IH; [lia| |exact E].
    intros k' Hk'. destruct (H (S k') ltac:(lia)) as [m' E']. exists m'. now replace (S j + k')%nat with (j + S k')%nat by lia.
Qed.
Lemma stack_constant f I d m : (forall n, In n (names f) -> has d n) -> load_all d None (names f) = Some m ->
  forall n j acc, stack f I d j n acc = Stacked (acc ++ repeat (design f m) n).
Proof.
  intros H E. assert (EL : forall l j, (forall n, In n l -> has d n) -> load_all d (Some j) l = load_all d None l).
  { intros l j. induction l as [|n l IH]; intros Hl; [reflexivity|]. cbn. rewrite IH; [|intros k Hk; apply Hl; now right].
    unfold load. destruct (Hl n (or_introl eq_refl)) as [c ->]. reflexivity. }
  induction n as [|n IH]; intros j acc; cbn; [now rewrite app_nil_r|].
  rewrite build_ignoring, EL, E by exact H. cbn. rewrite IH, <- app_assoc. reflexivity.
Qed.

(** Standard demographics. *)
Lemma build_standard f I d m : load_all d None (names f) = Some m ->
  build_matrix f I d None false = if any_entry fnan I (List.length (columns f)) (design f m) then None else Some (design f m).
Proof. intros E. unfold build_matrix. rewrite E. reflexivity. Qed.
Lemma build_unloaded f I d : load_all d None (names f) = None -> build_matrix f I d None false = None.
Proof. intros E. unfold build_matrix. now rewrite E. Qed.

Lemma finite_not_nan x : negb (ffin x) = false -> fnan x = false.
Proof. now destruct x. Qed.

(** mu uses only the demographics of a product's own index. *)
Lemma fsumn_ext n f g : (forall i, (i < n)%nat -> f i = g i) -> fsumn n f = fsumn n g.
Proof. induction n; intros H; cbn; [reflexivity|]. rewrite IHn, H by (intros; try apply H; lia). reflexivity. Qed.
Lemma mu_demographic K2 D sigma pi nodes transform X2 o o' i j : (forall d, (d < D)%nat -> demographic o i d j = demographic o' i d j) ->
  mu K2 D sigma pi nodes transform X2 o i j = mu K2 D sigma pi nodes transform X2 o' i j.
Proof.
  intros H. unfold mu. apply fsumn_ext. intros k _. f_equal. unfold coefficient. f_equal. destruct (Nat.ltb 0 D); [|reflexivity].
  f_equal. apply fsumn_ext. intros d Hd. now rewrite (H d Hd).
Qed.
Lemma nth_firstn_lt {A} (d : A) l : forall J j, (j < J)%nat -> nth j (firstn J l) d = nth j l d.
Proof.
  induction l as [|m l IH]; intros J j H; [now rewrite firstn_nil|]. destruct J; [lia|]. destruct j; [reflexivity|]. cbn. apply IH. lia.
Qed.
Lemma demographic_firstn l J i d j : (j < J)%nat -> demographic (market_demographics J (Stacked l)) i d j = demographic (Stacked l) i d j.
Proof. intros H. cbn. now rewrite nth_firstn_lt. Qed.

Lemma fsumn_num n (f : nat -> flt) g : (forall k, (k < n)%nat -> f k = Num (g k)) -> fsumn n f = Num (sumn n g).
Proof.
  induction n as [|n IH]; intros H; [reflexivity|]. cbn [fsumn sumn]. rewrite IH by (intros; apply H; lia). rewrite (H n) by lia. reflexivity.
Qed.
Lemma mu_documented K2 D sigma pi nodes transform t X2 o dem i j :
  (forall k x, (k < K2)%nat -> transform k (Num x) = Num (t k x)) ->
  (forall d, (d < D)%nat -> demographic o i d j = Num (dem i d j)) ->
  mu K2 D (fun k l => Num (sigma k l)) (fun k d => Num (pi k d)) (fun i l => Num (nodes i l)) transform (fun j k => Num (X2 j k)) o i j =
  Num (documented_mu K2 D sigma pi nodes t X2 dem i j).
Proof.
  intros T H. unfold mu, documented_mu. apply fsumn_num. intros k Hk. unfold coefficient.
  rewrite (fsumn_num K2 (fun l => fmul (Num (sigma k l)) (Num (nodes i l))) (fun l => (sigma k l * nodes i l)%R)) by reflexivity.
  rewrite (fsumn_num D (fun d => fmul (Num (pi k d)) (demographic o i d j)) (fun d => (pi k d * dem i d j)%R)) by (intros d Hd; rewrite H by exact Hd; reflexivity).
  destruct (Nat.ltb_spec 0 D) as [L|L].
  - cbn [fadd]. rewrite T by exact Hk. reflexivity.
  - replace D with 0%nat by lia. cbn [sumn]. rewrite Rplus_0_r, T by exact Hk. reflexivity.
Qed.
