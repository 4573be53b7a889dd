(** The evaluation loop as a recursive function, and the value it computes. *)
From Coq Require Import List ZArith Bool Arith Lia.
From Verif Require Import BT_Model Ev_Model Ev_Spec Ev_Proofs1.
Import ListNotations.
Local Open Scope Z_scope.

Section Big.
  Context {D V : Type}.
  Variable peq : D -> D -> bool.
  Variable op_type : D -> eop.
  Variable canon_phase : D -> Z.
  Variable vsum vprod : D -> D -> D -> V -> V -> V.
  Variable vadj : D -> D -> V -> V.
  Variable vphase : Z -> V -> V.
  Variable vperm : D -> V -> V.
  Variable vadd : V -> V -> V.
  Notation est := (@est D V).
  Variable le : tree D -> list V -> nat * list V.
  Variable custom : option (tree D -> est -> option nat * est).
  Variable hook : tree D -> V -> V -> option V.

  Notation eframe := (@eframe D).
  Notation finish := (finish_phase_b peq canon_phase vphase).
  Notation step := (eval_step peq op_type canon_phase vsum vprod vadj vphase le custom hook).
  Notation loop := (eval_loop peq op_type canon_phase vsum vprod vadj vphase le custom hook).

  Definition fin (n : tree D) (st : bool) (r : option nat) (s : est) : option (option nat * est) :=
    finish (mkef n true Enter st None None) r s.

  Lemma finish_fin : forall f r s, finish f r s = fin (f_node f) (f_store f) r s.
  Proof. intros. reflexivity. Qed.

  Definition binop (n : tree D) (d : D) (l r : tree D) (vl vr : V) : V :=
    match op_type d with
    | OpSum => vsum (data l) (data r) d vl vr
    | _ => match hook n vl vr with Some w => w | None => vprod (data l) (data r) d vl vr end
    end.

  Notation res := (option (option nat * est)).

  (** an internal node, given the evaluations of its children *)
  Definition std_of (bl br : est -> res) (n : tree D) (d : D) (l r : tree D) (st : bool) (s : est) : res :=
    match op_type d with
    | OpAdjoint =>
        match bl s with
        | None => None
        | Some (ra, s1) =>
            match deref s1 ra with
            | Some v => let '(a, s2) := alloc s1 (vadj (data l) d v) in fin n st (Some a) (logged s2 n)
            | None => None
            end
        end
    | _ =>
        match bl s with
        | Some (Some al, s1) =>
            match br s1 with
            | Some (rr, s2) =>
                match deref s2 (Some al), deref s2 rr with
                | Some vl, Some vr =>
                    let '(a, s3) := alloc s2 (binop n d l r vl vr) in fin n st (Some a) (logged s3 n)
                | _, _ => None
                end
            | None => None
            end
        | _ => None
        end
    end.

  Definition inner_of (std : est -> res) (n : tree D) (st : bool) (s : est) : res :=
    match custom with
    | None => std s
    | Some ce => let '(x, s1) := ce n s in
                 match x with Some a => fin n st (Some a) s1 | None => std s1 end
    end.

  Definition leaf_of (n : tree D) (st : bool) (s : est) : res :=
    let '(a, h) := le n (e_heap s) in fin n st (Some a) (mkest h (e_cache s) (e_log s)).

  Definition checked_of (miss : bool -> est -> res) (n : tree D) (chk : bool) (s : est) : res :=
    if chk then
      let '(ptr, c) := cache_access peq (e_cache s) n in
      let s1 := with_cache s c in
      match ptr with
      | Some a => apply_phase canon_phase vphase n (Some a) s1
      | None => miss (cache_exists peq (e_cache s1) n) s1
      end
    else miss false s.

  Fixpoint big (n : tree D) (chk : bool) (s : est) : res :=
    match n with
    | Leaf _ => checked_of (leaf_of n) n chk s
    | Node d l r => checked_of (fun st => inner_of (std_of (big l true) (big r true) n d l r st) n st) n chk s
    end.

  (** what the loop does with a frame on top of the stack *)
  Definition cont (fuel : nat) (rest : list eframe) (x : res) : outcome :=
    match x with Some (r, s') => loop fuel rest r s' | None => Failed end.

  Definition simulates (k : nat) (f : eframe) (ret : option nat) (s : est) (x : res) : Prop :=
    forall rest fuel, loop (k + fuel) (f :: rest) ret s = cont fuel rest x.

  Lemma cont_final : forall rest fuel x, match final x with
      | EPush f' c ret' s' => loop fuel (c :: f' :: rest) ret' s'
      | EFinal r s' => loop fuel rest r s' | EFail => Failed end = cont fuel rest x.
  Proof. intros. destruct x as [[r s']|]; reflexivity. Qed.

  Lemma size_pos : forall t : tree D, (1 <= size t)%nat.
  Proof. destruct t; cbn; lia. Qed.

  Notation fr0 n := (mkef n true Enter false None None).

  Lemma sim_std : forall (d : D) (l r : tree D) chk st bl br,
    (forall ret s, exists k, (k <= 3 * size l)%nat /\ simulates k (fr0 l) ret s (bl s)) ->
    (forall ret s, exists k, (k <= 3 * size r)%nat /\ simulates k (fr0 r) ret s (br s)) ->
    forall ret s, exists k, (k <= 3 * size l + 3 * size r + 2)%nat /\
    forall rest fuel,
      loop (k + fuel) (fr0 l :: mkef (Node d l r) chk (match op_type d with OpAdjoint => NeedLeftAdj | _ => NeedLeft end) st None None :: rest) ret s =
      cont fuel rest (std_of bl br (Node d l r) d l r st s).
  Proof.
    intros d l r chk st bl br Hl Hr ret s. destruct (Hl ret s) as (kl & Hkl & Sl). unfold std_of.
    assert (BIN : op_type d <> OpAdjoint -> exists k, (k <= 3 * size l + 3 * size r + 2)%nat /\
      forall rest fuel,
      loop (k + fuel) (fr0 l :: mkef (Node d l r) chk NeedLeft st None None :: rest) ret s =
      cont fuel rest match bl s with
        | Some (Some al, s1) =>
            match br s1 with
            | Some (rr, s2) =>
                match deref s2 (Some al), deref s2 rr with
                | Some vl, Some vr =>
                    let '(a, s3) := alloc s2 (binop (Node d l r) d l r vl vr) in fin (Node d l r) st (Some a) (logged s3 (Node d l r))
                | _, _ => None
                end
            | None => None
            end
        | _ => None
        end).
    { intros OP. destruct (bl s) as [[[al|] s1]|] eqn:BL.
      - destruct (Hr None s1) as (kr & Hk & Sr).
        exists (kl + (1 + (kr + 1)))%nat. split; [lia|]. intros rest fuel.
        rewrite <- !Nat.add_assoc, Sl. cbn [cont Nat.add eval_loop eval_step f_stage f_node f_checked f_store f_right].
        rewrite Sr. destruct (br s1) as [[rr s2]|]; [|reflexivity].
        cbn [cont Nat.add eval_loop eval_step f_stage f_node f_left].
        destruct (deref s2 (Some al)) as [vl|]; [|reflexivity].
        destruct (deref s2 rr) as [vr|]; [|reflexivity].
        unfold binop. destruct (alloc s2 _) as [a s3]. apply cont_final.
      - exists (kl + 1)%nat. split; [pose proof (size_pos r); lia|]. intros rest fuel. rewrite <- Nat.add_assoc, Sl. reflexivity.
      - exists kl. split; [lia|]. intros rest fuel. rewrite Sl. reflexivity. }
    destruct (op_type d) eqn:OP; try (apply BIN; congruence).
    exists (kl + 1)%nat. split; [lia|]. intros rest fuel. rewrite <- Nat.add_assoc, Sl.
    destruct (bl s) as [[ra s1]|]; [|reflexivity].
    cbn [cont Nat.add eval_loop eval_step f_stage f_node].
    destruct (deref s1 ra) as [v|]; [|reflexivity]. destruct (alloc s1 _) as [a s2]. apply cont_final.
  Qed.

  (** one turn spent on a cache miss *)
  Definition miss_turn (k : nat) (f : eframe) (ret : option nat) (s : est) (x : res) : Prop :=
    forall rest fuel,
      match enter_miss peq op_type canon_phase vphase le custom f ret s with
      | EPush f' c ret' s' => loop (k + fuel) (c :: f' :: rest) ret' s'
      | EFinal r s' => loop (k + fuel) rest r s'
      | EFail => Failed
      end = cont fuel rest x.

  Lemma loop_big_gen : forall n (miss : bool -> est -> res) m,
    (forall chk st ret s, exists k, (S k <= m)%nat /\ miss_turn k (mkef n chk Enter st None None) ret s (miss st s)) -> (1 <= m)%nat ->
    forall chk ret s, exists k, (k <= m)%nat /\ simulates k (mkef n chk Enter false None None) ret s (checked_of miss n chk s).
  Proof.
    intros n miss m H Hm chk ret s. unfold checked_of, simulates. destruct chk.
    - destruct (cache_access peq (e_cache s) n) as [[a|] c] eqn:CA.
      + exists 1%nat. split; [auto|]. intros rest fuel. cbn [Nat.add eval_loop eval_step f_stage f_checked f_node].
        rewrite CA. apply cont_final.
      + destruct (H true (cache_exists peq (e_cache (with_cache s c)) n) ret (with_cache s c)) as (k & Hk & M).
        exists (S k). split; [auto|]. intros rest fuel. cbn [Nat.add eval_loop eval_step f_stage f_checked f_node f_left f_right].
        rewrite CA. apply M.
    - destruct (H false false ret s) as (k & Hk & M).
      exists (S k). split; [auto|]. intros rest fuel. cbn [Nat.add eval_loop eval_step f_stage f_checked f_node f_left f_right].
      apply M.
  Qed.

  Lemma loop_big : forall n chk ret s, exists k, (k <= 3 * size n)%nat /\
    simulates k (mkef n chk Enter false None None) ret s (big n chk s).
  Proof.
    induction n as [d|d l IHl r IHr]; cbn [big].
    - apply loop_big_gen; [|cbn; lia]. intros chk st ret s. exists 0%nat. split; [cbn; lia|].
      intros rest fuel. unfold enter_miss, leaf_of. cbn [f_node]. destruct (le (Leaf d) _) as [a h]. apply cont_final.
    - apply loop_big_gen; [|cbn; lia]. intros chk st ret s. unfold miss_turn, enter_miss, inner_of.
      cbn [f_node f_checked f_store f_left f_right].
      destruct custom as [ce|] eqn:CU; rewrite <- CU.
      + destruct (ce (Node d l r) s) as [[a|] s1].
        * exists 0%nat. split; [cbn; lia|]. intros rest fuel. apply cont_final.
        * destruct (sim_std d l r chk st (big l true) (big r true) (IHl true) (IHr true) ret s1) as (k & Hk & H).
          exists k. split; [cbn [size]; lia|]. exact H.
      + destruct (sim_std d l r chk st (big l true) (big r true) (IHl true) (IHr true) ret s) as (k & Hk & H).
        exists k. split; [cbn [size]; lia|]. exact H.
  Qed.

  Theorem evaluate_big : forall fuel chk n s, (3 * size n <= fuel)%nat ->
    evaluate peq op_type canon_phase vsum vprod vadj vphase le custom hook fuel chk n s =
    match big n chk s with Some (r, s') => Done r s' | None => Failed end.
  Proof.
    intros fuel chk n s Hf. unfold evaluate. destruct (loop_big n chk None s) as (k & Hk & H).
    replace fuel with (k + (fuel - k))%nat by lia. rewrite H. unfold cont.
    destruct (big n chk s) as [[r s']|]; auto. destruct (fuel - k)%nat; reflexivity.
  Qed.
End Big.
