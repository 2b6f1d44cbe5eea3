(** Screening over the reals: the Boltzmann criterion. *)
From Coq Require Import Reals Lra List Bool Arith ZArith.
From Verif Require Import Base RBase EspaceModel EspaceSpec EspaceRealModel EspaceProofs EspaceMoreProofs.
Import ListNotations.
Local Open Scope R_scope.

(** The ground state of the space survives for every cutoff below one. *)
Lemma gs_survives beta egs cutoff (esp : espace RRing) : cutoff < 1 ->
  Forall (fun e => paired RRing (snd e)) esp -> NoDup (map fst esp) ->
  (exists q s, In (q, s) esp /\ In egs (s_vals RRing s)) ->
  exists esp', screen_espace RRing (boltzmann beta egs cutoff) esp = (Ok tt, esp') /\
    exists q s', In (q, s') esp' /\ In egs (s_vals RRing s').
Proof.
  intros Hc HP ND [q [s [Hq Hs]]].
  destruct (screen_spec RRing (boltzmann beta egs cutoff) esp HP ND) as [esp' [E [_ [_ [EK [S _]]]]]].
  exists esp'. split; [exact E|]. rewrite (screen_ok RRing _ esp HP ND) in E. injection E as <-.
  assert (B : boltzmann beta egs cutoff egs = true).
  { unfold boltzmann. apply Rltb_spec. replace (- beta * (egs - egs)) with 0 by ring. rewrite exp_0. exact Hc. }
  exists q, (cut RRing (boltzmann beta egs cutoff) s). split.
  - apply in_cut_all. exists s. split; [exact Hq|]. split; [|reflexivity]. apply existsb_exists. exists egs. auto.
  - cbn [cut s_vals]. apply filter_In. auto.
Qed.

(** A larger cutoff keeps a subset of the eigenpairs. *)
Lemma cutoff_monotone beta egs c1 c2 (esp : espace RRing) : c1 <= c2 ->
  Forall (fun e => paired RRing (snd e)) esp -> NoDup (map fst esp) ->
  exists e1 e2, screen_espace RRing (boltzmann beta egs c1) esp = (Ok tt, e1) /\
    screen_espace RRing (boltzmann beta egs c2) esp = (Ok tt, e2) /\
    forall q s2, In (q, s2) e2 -> exists s1, In (q, s1) e1 /\ incl (pairs RRing s2) (pairs RRing s1).
Proof.
  intros Hc HP ND. exists (cut_all RRing (boltzmann beta egs c1) esp), (cut_all RRing (boltzmann beta egs c2) esp).
  split; [now apply screen_ok|]. split; [now apply screen_ok|].
  assert (B : forall e, boltzmann beta egs c2 e = true -> boltzmann beta egs c1 e = true).
  { intros e. unfold boltzmann. rewrite !Rltb_spec. lra. }
  intros q s2 I. apply in_cut_all in I. destruct I as [s [Hq [Ex ->]]].
  exists (cut RRing (boltzmann beta egs c1) s). split.
  - apply in_cut_all. exists s. split; [exact Hq|]. split; [|reflexivity].
    apply existsb_exists in Ex. destruct Ex as [e [He Be]]. apply existsb_exists. exists e. auto.
  - assert (P : paired RRing s) by (rewrite Forall_forall in HP; apply (HP _ Hq)).
    destruct (cut_paired RRing (boltzmann beta egs c1) s P) as [_ ->].
    destruct (cut_paired RRing (boltzmann beta egs c2) s P) as [_ ->].
    intros p Hp. apply filter_In in Hp. apply filter_In. split; [tauto|]. apply B. tauto.
Qed.

(** With beta >= 0, an eigenvalue at or below a surviving one survives. *)
Lemma boltzmann_downward beta egs cutoff e e' : 0 <= beta -> e <= e' ->
  boltzmann beta egs cutoff e' = true -> boltzmann beta egs cutoff e = true.
Proof.
  unfold boltzmann. rewrite !Rltb_spec. intros Hb He H. eapply Rlt_le_trans; [exact H|].
  assert (L : - beta * (e' - egs) <= - beta * (e - egs)) by nra.
  destruct L as [L|L]; [left; now apply exp_increasing|right; now rewrite L].
Qed.
