(** What versions, quantities and UUIDs are, independently of how the code reads them. *)
From Coq Require Import String ZArith List Bool.
From Verif Require Import Base BigIntSpec EncSpec.
Import ListNotations.
Local Open Scope Z_scope.
Local Open Scope list_scope.

(** ** Versions *)

(** The text of the release [a.b.c], and of a pre-release of it. *)
Definition release (a b c : Z) : str := dec a ++ $"." ++ dec b ++ $"." ++ dec c.
Definition prerelease (a b c : Z) (pre : str) : str := release a b c ++ $"-" ++ pre.
(** Numbers that fit a C++ [int]. *)
Definition part (n : Z) : Prop := 0 <= n <= 2147483647.
(** Precedence of releases (semver.org, section 11): major, then minor, then patch. *)
Definition precedes (a b c a' b' c' : Z) : Prop := a < a' \/ a = a' /\ (b < b' \/ b = b' /\ c < c').

(** ** Quantities *)

Definition is_dec (c : Z) : Prop := 48 <= c <= 57.
Definition sign (s : str) : Prop := s = [] \/ s = $"+" \/ s = $"-".
Definition exponent (e : str) : Prop :=
  e = [] \/ exists c s k, e = [c] ++ s ++ k /\ (c = 101 \/ c = 69) /\ sign s /\ Forall is_dec k /\ k <> [] /\ (length k <= 6)%nat.
(** A decimal number: a sign, digits with a point before, between or after them, and an exponent of at most six digits. *)
Definition amount (t : str) : Prop :=
  exists s i d f e, t = s ++ i ++ d ++ f ++ e /\ sign s /\ Forall is_dec i /\ Forall is_dec f /\ exponent e /\
    (d = [] /\ f = [] /\ i <> [] \/ d = $"." /\ (i <> [] \/ f <> [])).
(** The same letters, in either case. *)
Definition lower_case (c : Z) : Z := if (65 <=? c) && (c <=? 90) then c + 32 else c.
(** Units that multiply by an integer. *)
Definition unit_factor (u : str) (f : Z) : Prop :=
  In (map lower_case u, f)
    [([], 1); ($"k", 1000); ($"m", 1000 ^ 2); ($"g", 1000 ^ 3); ($"t", 1000 ^ 4); ($"p", 1000 ^ 5); ($"e", 1000 ^ 6);
     ($"ki", 1024); ($"mi", 1024 ^ 2); ($"gi", 1024 ^ 3); ($"ti", 1024 ^ 4); ($"pi", 1024 ^ 5); ($"ei", 1024 ^ 6)].
(** Units smaller than one; "m" is the only one whose case matters. *)
Definition small_unit (u : str) : Prop := u = $"m" \/ In (map lower_case u) [$"d"; $"c"; $"u"; $"n"].
(** "b" or "B" or nothing. *)
Definition byte_mark (b : str) : Prop := b = [] \/ b = $"b" \/ b = $"B".

(** ** UUIDs *)

Definition uuid (id : list Z) : Prop := length id = 16%nat /\ octets id.
Definition byte_of (id : list Z) (i : nat) : Z := nth i id 0.
Definition no_dashes (t : str) : str := filter (fun c => negb (c =? 45)) t.
(** 32 hexadecimal digits with dashes anywhere, perhaps in braces. *)
Definition uuid_text (id : list Z) (s : str) : Prop :=
  exists t, (s = t \/ s = $"{" ++ t ++ $"}") /\ hex_text id (no_dashes t) /\ length id = 16%nat.
(** RFC 4122, section 4.1: fields of a UUID. *)
Definition rfc_variant (id : list Z) : str :=
  let b := byte_of id 8 in
  if b <? 128 then $"ncs" else if b <? 192 then $"RFC4122" else if b <? 224 then $"microsoft" else $"reserved".
Definition rfc_version (id : list Z) : Z := byte_of id 6 / 16.
(** 100ns intervals since 15 October 1582 (2299160 is its Julian day, 2440587 that of 1 January 1970). *)
Definition rfc_timestamp (id : list Z) : Z :=
  ((byte_of id 6 mod 16) * 2 ^ 8 + byte_of id 7) * 2 ^ 48 + (byte_of id 4 * 2 ^ 8 + byte_of id 5) * 2 ^ 32 +
  byte_of id 0 * 2 ^ 24 + byte_of id 1 * 2 ^ 16 + byte_of id 2 * 2 ^ 8 + byte_of id 3.
Definition rfc_unix_ns (id : list Z) : Z := (rfc_timestamp id - (2440587 - 2299160) * 86400 * 10 ^ 7) * 100.
Definition rfc_clock (id : list Z) : Z := (byte_of id 8 mod 64) * 2 ^ 8 + byte_of id 9.
Definition rfc_mac (id : list Z) : str :=
  (if byte_of id 10 / 2 mod 2 =? 1 then $"local:" else $"global:") ++ (if byte_of id 10 mod 2 =? 1 then $"multicast" else $"unicast").
(** DCE 1.1, version 2 UUIDs: the domain of the identifier in the first four bytes. *)
Definition dce_domain (id : list Z) : str :=
  match byte_of id 9 with 0 => $"Person" | 1 => $"Group" | 2 => $"Org" | n => $"Domain" ++ dec n end.
