(** * ReleaseLemmas: what is written can be read back *)
From Coq Require Import ZArith String Ascii Lia.
From mathcomp Require Import ssreflect ssrfun ssrbool eqtype ssrnat seq path div.
From Verif Require Import Text TextLemmas Ver VerLemmas VerKw Release.

Set Implicit Arguments.
Unset Strict Implicit.
Unset Printing Implicit Defensive.

(** ** Hexadecimal digits *)
Lemma hexdigitK n : n < 16 -> hexvalue (hexdigit n) = Some n.
Proof. by do 16! [case: n => [//|n]]. Qed.

Lemma c1024 : 64 * 1024 = 16 * 16 * 16 * 16. Proof. by rewrite -[1024]/(4 * (16 * 16)) mulnA -[64 * 4]/(16 * 16) !mulnA. Qed.

Lemma small_hex c : c %/ 1024 < 64 -> c < 16 * 16 * 16 * 16.
Proof. by rewrite ltn_divLR // c1024. Qed.

Lemma unhex4K n : n %/ 1024 < 64 -> unhex4 (hexdigit (n %/ 16 %/ 16 %/ 16)) (hexdigit (n %/ 16 %/ 16 %% 16))
  (hexdigit (n %/ 16 %% 16)) (hexdigit (n %% 16)) = Some n.
Proof.
move=> /small_hex Hn; rewrite /unhex4 !hexdigitK ?ltn_mod //; last by rewrite !ltn_divLR.
by congr Some; rewrite -!divn_eq.
Qed.

(** ** Fuel *)
Lemma scan_fuel n m s : size s <= n -> size s <= m -> scan_from n s = scan_from m s.
Proof.
elim: n m s => [|n IH] m s; first by case: s m => [|c s] // [].
case: m => [|m]; first by case: s.
case: s => [|c r] //=; rewrite !ltnS => Hn Hm.
have E r' : size r' <= size r -> scan_from n r' = scan_from m r'.
  by move=> Hr; apply: IH; [exact: leq_trans Hr Hn|exact: leq_trans Hr Hm].
case: ifP => // _; case: ifP => _; last by case: ifP => // _; rewrite E.
case: r Hn Hm E => [|e r] //= _ _ E; case: ifP => _; last by case: (json_escape e) => // x; rewrite E // ltnW.
case: r E => [|x1 [|x2 [|x3 [|x4 r]]]] //= E.
case: (unhex4 _ _ _ _) => // u.
have E' r' : size r' <= size r -> scan_from n r' = scan_from m r' by move=> Hr; apply: E; rewrite !leqW.
case: ifP => _; last by rewrite E'.
have : if second_half r is Some (l, r3) then size r3 <= size r else true.
  case: r {E E'} => [|y1 [|y2 [|y3 [|y4 [|y5 [|y6 r]]]]]] //=; case: ifP => // _.
  by case: (unhex4 _ _ _ _) => // u'; case: ifP => // _; rewrite !leqW.
by case: (second_half r) => [[l r3]|] H; rewrite E'.
Qed.

Definition scan s := scan_from (size s) s.

Lemma scanE s : scan s = match s with
    | [::] => None
    | c :: r =>
      if c == 34 then Some ([::], r)
      else if c == 92 then
        match r with
        | e :: r' =>
          if e == chr "u" then
            match r' with
            | a :: b :: c :: d :: r'' =>
              if unhex4 a b c d is Some u then
                match (if u %/ 1024 == 54 then second_half r'' else None) with
                | Some (l, r3) =>
                  omap (fun p => (64 * 1024 + ((u %% 1024) * 1024 + l %% 1024) :: p.1, p.2)) (scan r3)
                | None => omap (fun p => (u :: p.1, p.2)) (scan r'')
                end
              else None
            | _ => None
            end
          else if json_escape e is Some x then omap (fun p => (x :: p.1, p.2)) (scan r') else None
        | [::] => None
        end
      else if c < 32 then None
      else omap (fun p => (c :: p.1, p.2)) (scan r)
    end.
Proof.
have F n r : size r <= n -> scan_from n r = scan r by move=> Hr; exact: scan_fuel.
case: s => [|c r]; first by [].
rewrite {1}/scan [size _]/= -/(scan_from _ _); have : size r <= size r by [].
move: {-1}(size r) => n Hn; rewrite [LHS]/=.
case: ifP => // _; case: ifP => _; last by case: ifP => // _; rewrite F.
case: r Hn => [|e r] // Hn; case: ifP => _; last by case: (json_escape e) => // x; rewrite F // ltnW.
case: r Hn => [|x1 [|x2 [|x3 [|x4 r]]]] // Hn.
have Hr : size r <= n by apply: leq_trans Hn; rewrite /= !leqW.
case: (unhex4 _ _ _ _) => // u; case: ifP => _; last by rewrite F.
have : if second_half r is Some (l, r3) then size r3 <= size r else true.
  case: r {Hn Hr} => [|y1 [|y2 [|y3 [|y4 [|y5 [|y6 r]]]]]] //=; case: ifP => // _.
  by case: (unhex4 _ _ _ _) => // u'; case: ifP => // _; rewrite !leqW.
case: (second_half r) => [[l r3]|] H; rewrite F //; exact: leq_trans H Hr.
Qed.

(** ** Strings *)
(** A character: a code point that is not a surrogate. *)
Definition charok (c : nat) : bool := (c %/ 1024 < 64 + 1024) && (c %/ 1024 != 54) && (c %/ 1024 != 55).
(** A way of writing characters that scan reads. *)
Definition reads_back (e : nat -> text) (ok : pred nat) : Prop :=
  forall c r, ok c -> scan (e c ++ r) = omap (fun p => (c :: p.1, p.2)) (scan r).

Lemma sur_div K a b : b < K -> (a * K + b) %/ K = a.
Proof. by move=> H; rewrite divnMDl ?divn_small ?addn0 //; exact: leq_ltn_trans H. Qed.
Lemma sur_mod K a b : b < K -> (a * K + b) %% K = b.
Proof. by move=> H; rewrite modnMDl modn_small. Qed.
Lemma sur_join K c : 64 <= c %/ K -> 64 * K + ((c %/ K - 64) * K + c %% K) = c.
Proof. by move=> H; rewrite addnA -mulnDl subnKC // -divn_eq. Qed.
Lemma lt1024 c : c %% 1024 < 1024. Proof. by rewrite ltn_mod. Qed.

Lemma json_char_reads : reads_back json_char charok.
Proof.
move=> c r /andP [/andP [H1 H2] H3]; rewrite /json_char.
case: ifP => H34.
  by rewrite cat_cons cat1s scanE eqxx /=; case/orP: H34 => /eqP ->.
case: ifP => H32.
  move/negbT: H34; rewrite negb_or => /andP [/negPf n92 /negPf n34].
  by rewrite cat1s scanE n34 n92 ltnNge; case/andP: H32 => -> _.
case: eqP => [->|_]; first by rewrite /txt [(_ ++ r)%SEQ]/= scanE.
case: eqP => [->|_]; first by rewrite /txt [(_ ++ r)%SEQ]/= scanE.
case: eqP => [->|_]; first by rewrite /txt [(_ ++ r)%SEQ]/= scanE.
case: eqP => [->|_]; first by rewrite /txt [(_ ++ r)%SEQ]/= scanE.
case: eqP => [->|_]; first by rewrite /txt [(_ ++ r)%SEQ]/= scanE.
case: ifP => H64.
  rewrite /u_escape /hex4 !cat_cons cat0s scanE (_ : (92 == 34) = false) // (_ : (92 == 92) = true) //.
  by rewrite eqxx unhex4K // (negPf H2).
move/negbT: H64; rewrite -leqNgt => H64.
have q : c %/ 1024 - 64 < 1024 by rewrite ltn_subLR.
have r1024 := lt1024 c.
have e1 := sur_div 54 q; have e2 := sur_div 55 r1024; have e3 := sur_mod 54 q; have e4 := sur_mod 55 r1024.
have e5 := sur_join H64.
move: (c %/ 1024 - 64) (c %% 1024) e1 e2 e3 e4 e5 {q r1024} => x y e1 e2 e3 e4 e5.
rewrite -catA /u_escape /hex4 !cat_cons !cat0s scanE (_ : (92 == 34) = false); last by [].
rewrite eqxx eqxx unhex4K; last by rewrite e1.
rewrite e1 eqxx /second_half eqxx eqxx unhex4K; last by rewrite e2.
rewrite e2 eqxx (_ : true && true = true); last by [].
cbv beta iota; rewrite e3.
by rewrite e4 e5.
Qed.
