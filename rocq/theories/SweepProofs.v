(** Proofs about displayed progress of fixed point iteration. *)
From Coq Require Import Ascii String Reals List Arith Bool Lia Lra.
From Verif Require Import FltModel TableModel FormatModel ProgressModel DisplayModel DisplaySpec DisplayProofs SummaryModel SummaryProofs DemandModel SweepModel.
Import ListNotations.

Lemma next_norm_is s o : s <> NInf \/ o <> NInf -> o <> NInf -> next_norm s o = if fltb o s then o else s.
Proof.
  intros _ N. unfold next_norm. destruct s as [a| | |], o as [b| | |]; cbn [fsub fneg fadd fltb]; try reflexivity; try contradiction.
  unfold rltb. destruct (Rlt_dec 0 (a + - b)), (Rlt_dec b a); try reflexivity; lra.
Qed.
Lemma fmax_not_minus x y : x <> NInf -> y <> NInf -> fmax x y <> NInf.
Proof. intros X Y. unfold fmax. destruct (fnan x || fnan y); [discriminate|]. destruct (fltb x y); assumption. Qed.
Lemma change_not_minus e : change e <> NInf.
Proof.
  unfold change, array_max. assert (A : forall l, (forall y, In y l -> y <> NInf) -> forall x, x <> NInf -> fold_left fmax l x <> NInf).
  { induction l as [|y l IH]; intros H x X; [exact X|]. cbn [fold_left]. apply IH; [intros z Hz; apply H; right; exact Hz|]. apply fmax_not_minus; [exact X|apply H; left; reflexivity]. }
  assert (B : forall v y, In y (map absolute v) -> y <> NInf) by (intros v y I; apply in_map_iff in I; destruct I as (z & <- & _); destruct z; discriminate).
  specialize (B (vsub (x_after e) (x_before e))). destruct (map absolute (vsub (x_after e) (x_before e))) as [|x l]; [discriminate|]. apply A; [intros y Hy; apply B; right; exact Hy|apply B; left; reflexivity].
Qed.
Lemma sweeps_running digits s market l : forall smallest,
  sweeps_from digits s market smallest l = map (fun ex => (repeats_header (fst ex), sweep_cells digits s market (fst ex) (snd ex))) (combine l (map snd (running smallest (map change l)))).
Proof.
  induction l as [|e l IH]; intro smallest; [reflexivity|]. cbn [sweeps_from map running combine fst snd]. rewrite IH, next_norm_is by (right || idtac; apply change_not_minus). reflexivity.
Qed.
Lemma change_finite e : vsub (x_after e) (x_before e) <> [] -> vfin (vsub (x_after e) (x_before e)) = true ->
  exists r, change e = Num r /\ forall c, (r <= c <-> forall b, In (Num b) (vsub (x_after e) (x_before e)) -> Rabs b <= c)%R.
Proof.
  intros N F. destruct (firm_norm_finite _ N F) as (r & E & H). exists r. split; [|exact H]. rewrite <- E. unfold change, firm_norm. destruct (vsub (x_after e) (x_before e)); [contradiction N; reflexivity|reflexivity].
Qed.
Lemma running_fst s l : map fst (running s l) = l.
Proof. revert s. induction l as [|o l IH]; intro s; [reflexivity|]. cbn [running map fst]. rewrite IH. reflexivity. Qed.
