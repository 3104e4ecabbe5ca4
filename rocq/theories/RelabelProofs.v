(** A depth-first search of two graphs that differ in the identities of edges only. *)
From Coq Require Import ZArith List Bool PeanoNat Lia.
From Verif Require Import Outcome GraphModel.
Import ListNotations.

Definition orel {X Y} (R : X -> Y -> Prop) (a : outcome X) (b : outcome Y) : Prop :=
  match a, b with
  | Ok x, Ok y => R x y
  | AssertFail, AssertFail | Throw, Throw | UB, UB | NoFuel, NoFuel => True
  | _, _ => False
  end.

Lemma orel_bind {X Y X' Y'} (R : X -> Y -> Prop) (R' : X' -> Y' -> Prop) a b f h :
  orel R a b -> (forall x y, R x y -> orel R' (f x) (h y)) -> orel R' (bind a f) (bind b h).
Proof. destruct a, b; cbn; intros H K; try contradiction; auto. Qed.

Section Sim.
  Context (rel : edge -> edge -> Prop).
  Context (Hsrc : forall e f, rel e f -> e_src e = e_src f) (Htgt : forall e f, rel e f -> e_tgt e = e_tgt f).

  Definition ev_rel (a b : event) : Prop :=
    match a, b with
    | ETreeStart e, ETreeStart f | ETreeFinish e, ETreeFinish f | ENonTree e, ENonTree f => rel e f
    | EInit u, EInit v | ESearchStart u, ESearchStart v | EDiscover u, EDiscover v
    | EStart u, EStart v | EFinish u, EFinish v => u = v
    | ESearchFinish u, ESearchFinish v => u = v
    | _, _ => False
    end.

  Context {S1 S2 : Type} (V1 : visitor S1) (V2 : visitor S2) (RS : S1 -> S2 -> Prop).
  Context (Hstep : forall a b s t, ev_rel a b -> RS s t -> RS (v_step V1 a s) (v_step V2 b t)).
  Context (Hdisc : forall s t u, RS s t -> v_disc V1 s u = v_disc V2 t u).
  Context (g1 g2 : graph) (Hn : g_n g1 = g_n g2).
  Context (Hout : forall u, Forall2 rel (g_out g1 u) (g_out g2 u)).
  Context (term : nat -> bool).

  Lemma sim_loop fuel : forall s t u it1 it2 st1 st2, RS s t -> Forall2 rel it1 it2 ->
    Forall2 (fun a b => fst a = fst b /\ Forall2 rel (snd a) (snd b)) st1 st2 ->
    orel (fun a b => RS (fst a) (fst b) /\ snd a = snd b)
      (dfs_loop V1 g1 term fuel s u it1 st1) (dfs_loop V2 g2 term fuel t u it2 st2).
  Proof.
    induction fuel as [|fuel IH]; intros s t u it1 it2 st1 st2 R I ST; [exact Logic.I|].
    cbn [dfs_loop]. destruct I as [|e f it1 it2 E I].
    - assert (R' : RS (v_step V1 (EFinish u) s) (v_step V2 (EFinish u) t)) by (apply Hstep; [reflexivity|exact R]).
      destruct ST as [|[u1 i1] [u2 i2] st1 st2 [EU EI] ST]; [split; [exact R'|reflexivity]|].
      cbn [fst snd] in EU, EI. subst u2. destruct EI as [|e f i1 i2 E EI]; [exact Logic.I|].
      apply IH; auto.
    - rewrite (Htgt e f E), (Hdisc s t _ R). destruct (v_disc V2 t (e_tgt f)).
      + apply IH; auto.
      + assert (R' : RS (v_step V1 (EStart (e_tgt f)) (v_step V1 (EDiscover (e_tgt f)) (v_step V1 (ETreeStart e) s)))
          (v_step V2 (EStart (e_tgt f)) (v_step V2 (EDiscover (e_tgt f)) (v_step V2 (ETreeStart f) t)))).
        { apply Hstep; [reflexivity|]. apply Hstep; [reflexivity|]. now apply Hstep. }
        destruct (term (e_tgt f)); [split; [exact R'|reflexivity]|].
        apply IH; [exact R'|apply Hout|]. constructor; [|exact ST]. split; [reflexivity|]. now constructor.
  Qed.

  Lemma sim_visit fuel s t u : RS s t -> orel RS (dfs_visit V1 g1 term fuel s u) (dfs_visit V2 g2 term fuel t u).
  Proof.
    intro R. unfold dfs_visit.
    assert (R' : RS (v_step V1 (EStart u) (v_step V1 (EDiscover u) (v_step V1 (ESearchStart u) s)))
          (v_step V2 (EStart u) (v_step V2 (EDiscover u) (v_step V2 (ESearchStart u) t)))).
    { apply Hstep; [reflexivity|]. apply Hstep; [reflexivity|]. now apply Hstep. }
    apply orel_bind with (fun a b => RS (fst a) (fst b) /\ snd a = snd b).
    - destruct (term u); [split; [exact R'|reflexivity]|]. apply sim_loop; [exact R'|apply Hout|constructor].
    - intros [x u1] [y u2] [RX EU]. cbn [fst snd] in *. subst u2. cbn. apply Hstep; [reflexivity|exact RX].
  Qed.

  Lemma sim_all fuel s t : RS s t -> orel RS (dfs_all V1 g1 term fuel s) (dfs_all V2 g2 term fuel t).
  Proof.
    intro R. unfold dfs_all, init_all, vertices. rewrite Hn. set (l := seq 0 (g_n g2)).
    assert (R' : RS (fold_left (fun s u => v_step V1 (EInit u) s) l s) (fold_left (fun s u => v_step V2 (EInit u) s) l t)).
    { revert s t R. induction l as [|u l IH]; intros s t R; [exact R|]. cbn. apply IH. apply Hstep; [reflexivity|exact R]. }
    revert R'. generalize (fold_left (fun s u => v_step V1 (EInit u) s) l s)
      (fold_left (fun s u => v_step V2 (EInit u) s) l t). clear s t R.
    induction l as [|u l IH]; intros s t R; [exact R|]. cbn [dfs_roots]. rewrite (Hdisc s t u R).
    destruct (v_disc V2 t u); [now apply IH|].
    apply orel_bind with RS; [now apply sim_visit|]. intros x y RX. now apply IH.
  Qed.
End Sim.

(** The finder of bridges looks at the ends of edges only. *)
Definition bridge_rel (rel : edge -> edge -> Prop) (s t : bridge) : Prop :=
  Forall2 rel (br_out s) (br_out t) /\ br_c s = br_c t /\ br_low s = br_low t /\
  br_not_root s = br_not_root t /\ br_now s = br_now t /\ br_top s = br_top t.

Section Bridge.
  Context (rel : edge -> edge -> Prop).
  Context (Hsrc : forall e f, rel e f -> e_src e = e_src f) (Htgt : forall e f, rel e f -> e_tgt e = e_tgt f).

  Lemma br_relax_rel parallel e f s t : rel e f -> bridge_rel rel s t ->
    bridge_rel rel (br_relax parallel e s) (br_relax parallel f t).
  Proof.
    intros E (A & B & C & D & F & G). destruct s as [so sc sl sr sn st], t as [to tc tl tr tn tt].
    cbn [br_out br_c br_low br_not_root br_now br_top] in *. subst.
    unfold br_relax. cbn [br_out br_c br_low br_not_root br_now br_top].
    rewrite (Hsrc e f E), (Htgt e f E).
    destruct (match tt with
      | [] => (false, [])
      | (p, x) :: rest => if p =? e_tgt f then let (b, x) := once parallel x in (b, (p, x) :: rest) else (false, tt)
      end) as [skip top].
    destruct skip; [|destruct (_ <? _)%Z]; repeat split; exact A.
  Qed.

  Lemma bridge_step_rel parallel a b s t : ev_rel rel a b -> bridge_rel rel s t ->
    bridge_rel rel (v_step (bridge_visitor parallel) a s) (v_step (bridge_visitor parallel) b t).
  Proof.
    intros EV R. destruct a, b; cbn in EV; try contradiction; try subst; cbn [v_step bridge_visitor to_visitor c_step bridge_finder];
      try exact R.
    - destruct R as (A & B & C & D & F & G). repeat split; cbn; try congruence; exact A.
    - destruct R as (A & B & C & D & F & G). repeat split; cbn; try congruence; exact A.
    - destruct R as (A & B & C & D & F & G). repeat split; cbn; try congruence; exact A.
    - rewrite (proj1 (proj2 (proj2 (proj2 R)))). destruct (br_not_root t _); [exact R|].
      destruct R as (A & B & C & D & F & G). repeat split; cbn; try congruence; exact A.
    - destruct R as (A & B & C & D & F & G). repeat split; cbn; try congruence; try exact A.
      rewrite (Hsrc _ _ EV). congruence.
    - assert (R' : bridge_rel rel
        {| br_out := br_out s; br_c := br_c s; br_low := br_low s; br_not_root := br_not_root s;
           br_now := br_now s; br_top := tl (br_top s) |}
        {| br_out := br_out t; br_c := br_c t; br_low := br_low t; br_not_root := br_not_root t;
           br_now := br_now t; br_top := tl (br_top t) |}).
      { destruct R as (A & B & C & D & F & G). repeat split; cbn; try congruence; exact A. }
      pose proof (br_relax_rel parallel _ _ _ _ EV R') as RR. revert RR.
      generalize (br_relax parallel e {| br_out := br_out s; br_c := br_c s; br_low := br_low s; br_not_root := br_not_root s;
           br_now := br_now s; br_top := tl (br_top s) |})
        (br_relax parallel e0 {| br_out := br_out t; br_c := br_c t; br_low := br_low t; br_not_root := br_not_root t;
           br_now := br_now t; br_top := tl (br_top t) |}).
      intros s' t' RR. rewrite (Htgt _ _ EV), (proj1 (proj2 (proj2 (proj2 RR)))).
      destruct (br_not_root t' _); [exact RR|].
      destruct RR as (A & B & C & D & F & G). repeat split; cbn; try congruence.
      apply Forall2_app; [exact A|]. now constructor.
    - now apply br_relax_rel.
  Qed.

  Lemma find_bridges_rel parallel fuel g1 g2 cm : g_n g1 = g_n g2 ->
    (forall u, Forall2 rel (g_out g1 u) (g_out g2 u)) ->
    orel (bridge_rel rel) (find_bridges parallel fuel g1 cm) (find_bridges parallel fuel g2 cm).
  Proof.
    intros Hn Ho. apply (sim_all rel Htgt _ _ (bridge_rel rel)); auto.
    - intros a b s t. apply bridge_step_rel.
    - intros s t u (_ & _ & L & _). cbn. now rewrite L.
    - repeat split. constructor.
  Qed.
End Bridge.
