(** Counterexamples to fermion properties, computed on Gaussian rationals. *)
From Coq Require Import List Arith Lia Bool QArith Qabs Qcanon.
From Verif Require Import Scalars Res Matrix ModelBase ModelFermions SpecFock SpecHubbard InitProofs.
Import ListNotations.
Local Open Scope nat_scope.

Definition g1 : GQ := gq_Q 1.
Definition gi : GQ := ki.
Definition scal (x : GQ) : nd GQ := Nd [] (fun _ => x).
Definition vec (l : list GQ) : nd GQ := Nd [length l] (fun i => nth i l k0).

(** Two sites, one bond. *)
Definition bond (phase : GQ) (dx dy : Q) : fgeom GQ :=
  FGeom 2 (fun i j => negb (i =? j))
    (fun i j => if i <? j then phase else if j <? i then kconj phase else k1)
    (fun i j => if i <? j then dx else if j <? i then - dx else 0)%Q
    (fun i j => if i <? j then dy else if j <? i then - dy else 0)%Q.

Lemma bond_phase p dx dy : forall i j, fg_phase (bond p dx dy) j i = kconj (fg_phase (bond p dx dy) i j).
Proof.
  intros i j. cbn [bond fg_phase]. destruct (Nat.ltb_spec i j), (Nat.ltb_spec j i); try lia.
  - reflexivity.
  - rewrite kconj_inv. reflexivity.
  - rewrite kconj_1. reflexivity.
Qed.

Lemma kneb_true {K} {SR : StarRing K} (a b : K) : kneb a b = true -> a <> b.
Proof. unfold kneb. destruct (keq_dec a b); congruence. Qed.

Lemma single_site_dim_refuted :
  exists s i si (op A : mat GQ), square (s_nbasis s) op /\ i < s_nsites s /\ si < s_nspecies s /\
    single_site_op s i si op Boson = Ok A /\ nrow A <> nstates s.
Proof.
  exists (Sys 2 1 3), 0, 0, (meye 3). eexists. repeat split; cbn [s_nsites s_nspecies]; try lia.
  vm_compute. lia.
Qed.

Definition ts_complex : nd GQ := Nd [2; 2; 1] (fun i => nth i [k0; gi; kopp gi; k0] k0).

Definition run_init g ts := fermions_init g (scal k0) ts None (scal k0) (scal k0) (scal k0) 1.
Definition run_H (r : res (fermions GQ)) : res (mat GQ) := f <- r ;; createH f None.

(** Read one entry of a result. *)
Definition probe (r : res (mat GQ)) (i j : nat) : GQ := match r with Ok A => ent A i j | Raise _ => k0 end.

Lemma is_ok_ex {A} (r : res A) : is_ok r = true -> exists a, r = Ok a.
Proof. destruct r; [eauto|discriminate]. Qed.

Lemma run_both g ts : is_ok (run_H (run_init g ts)) = true ->
  exists f H, run_init g ts = Ok f /\ createH f None = Ok H /\ run_H (run_init g ts) = Ok H.
Proof.
  intros X. apply is_ok_ex in X as (H & X). pose proof X as Y. unfold run_H in X.
  apply bind_ok in X as (f & E & EH). eauto.
Qed.

Definition dims (r : res (mat GQ)) : nat * nat := match r with Ok A => (nrow A, ncol A) | Raise _ => (0, 0) end.

Lemma complex_hopping_refuted :
  exists (g : fgeom GQ) (ts zero : nd GQ) f H,
    (forall i j, flat ts (j * 2 + i) = kconj (flat ts (i * 2 + j)) \/ 2 <= i \/ 2 <= j) /\
    shape ts = [2; 2; 1] /\
    fermions_init g zero ts None zero zero zero 1 = Ok f /\
    createH f None = Ok H /\ ~ meq (madj H) H.
Proof.
  set (g := bond k1 1 0).
  destruct (run_both g ts_complex) as (f & H & E & EH & X); [vm_compute; reflexivity|].
  exists g, ts_complex, (scal k0), f, H. split; [|split; [|split; [|split]]]; auto.
  - intros i j. destruct i as [|[|i]]; [| |right; left; lia]; (destruct j as [|[|j]]; [| |right; right; lia]);
      left; apply kneb_false; vm_compute; reflexivity.
  - intros (D1 & D2 & M).
    assert (D : dims (run_H (run_init g ts_complex)) = (4, 4)) by (vm_compute; reflexivity).
    rewrite X in D. injection D as R C.
    assert (A : ent (madj H) 1 2 = ent H 1 2) by (apply M; cbn; lia). cbn [ent madj] in A.
    assert (N : kneb (kconj (probe (run_H (run_init g ts_complex)) 2 1)) (probe (run_H (run_init g ts_complex)) 1 2) = true)
      by (vm_compute; reflexivity).
    rewrite X in N. apply kneb_true in N. exact (N A).
Qed.

Definition spec_entry (f : fermions GQ) i j : GQ :=
  ent (hubbard_spec 2 1 (f_ts f) (f_us f) (f_same f) (f_mus f) (f_pot f)) i j.

Lemma documented_model_refuted :
  exists (g : fgeom GQ) (ts zero : nd GQ) f H,
    (fg_xdist g 1 0 * fg_xdist g 1 0 + fg_ydist g 1 0 * fg_ydist g 1 0 == 1)%Q /\
    fermions_init g zero ts None zero zero zero 1 = Ok f /\
    createH f None = Ok H /\
    ~ meq H (hubbard_spec 2 1 (f_ts f) (f_us f) (f_same f) (f_mus f) (f_pot f)).
Proof.
  set (g := bond k1 (3 # 5) (4 # 5)).
  destruct (run_both g (scal k1)) as (f & H & E & EH & X); [vm_compute; reflexivity|].
  exists g, (scal k1), (scal k0), f, H. split; [|split; [|split]]; auto; [vm_compute; reflexivity|].
  intros (D1 & D2 & M).
  assert (A : ent H 2 1 = spec_entry f 2 1) by (apply M; rewrite ?D1, ?D2; vm_compute; lia).
  assert (N : kneb (probe (run_H (run_init g (scal k1))) 2 1)
                (match run_init g (scal k1) with Ok f => spec_entry f 2 1 | Raise _ => k0 end) = true)
    by (vm_compute; reflexivity).
  rewrite X, E in N. apply kneb_true in N. exact (N A).
Qed.

Lemma twist_refuted :
  exists (g : fgeom GQ) (ts zero : nd GQ) f,
    (forall i j, fg_phase g j i = kconj (fg_phase g i j)) /\ nd_size ts = 1 /\
    fermions_init g zero ts None zero zero zero 1 = Ok f /\
    fg_adj g 1 0 = true /\ f_ts f 1 0 0 <> kmul (flat ts 0) (fg_phase g 1 0).
Proof.
  set (g := bond gi 1 0).
  destruct (is_ok_ex (run_init g (scal k1))) as (f & E); [vm_compute; reflexivity|].
  exists g, (scal k1), (scal k0), f.
  split; [apply bond_phase|]. split; [reflexivity|]. split; [exact E|]. split; [reflexivity|].
  assert (N : kneb (match run_init g (scal k1) with Ok f => f_ts f 1 0 0 | Raise _ => k0 end)
                (kmul (flat (scal k1) 0) (fg_phase g 1 0)) = true) by (vm_compute; reflexivity).
  rewrite E in N. apply kneb_true in N. exact N.
Qed.

Lemma per_species_potential_refuted :
  exists (g : fgeom GQ) (pot : nd GQ) p, nd_size pot = 2 /\ init_pot g 2 pot = Ok p /\
    p 0 1 <> flat pot 1.
Proof.
  exists (bond k1 1 0), (vec [k0; k1]).
  destruct (per_species_potential (bond k1 1 0) 2 (vec [k0; k1])) as [_ B]; [lia|reflexivity|].
  destruct (B eq_refl) as (p & E & F). exists p. split; [reflexivity|]. split; [exact E|].
  rewrite F by lia. apply kneb_true. vm_compute. reflexivity.
Qed.
