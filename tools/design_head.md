# Formal model of jakecoffman/cp in Rocq (Coq 8.16.1)

## Layout

* `rocq/theories/Num.v` – the arithmetic interface the model is written against, with two instances:
  * `R` – ideal real arithmetic (Coq.Reals);
  * `F` – IEEE-754 binary64 (Flocq `binary_float 53 1024`, round to nearest even), with Go's exact
    `math.Min`/`math.Max`/comparison semantics on NaN, infinities and signed zeros.
  Every numeric function of the code is transcribed **once**, generically, and both instances run the same text.
* `rocq/theories/Model/*.v` – definitions only, one file per Go file (or part of it); each definition cites file:lines.
* `rocq/theories/Spec*.v` – the small specifications the theorems are stated against, written without the model's helpers
  (finite maps, lists of live arbiters, distances, hulls, histories of API calls).
* `rocq/theories/Proofs/*.v` – lemmas.
* `rocq/theories/Props/*.v` – the property theorems only, named `Cnn_…`, with short proofs, followed by
  `Print Assumptions`, with an `Example`/witness that its hypotheses are met by a concrete non-trivial case.
* suffix `_partial`: part of the property; suffix `_refuted`: the code violates the property as stated, with a witness
  (these are about the code as it is: a user must not rely on the property). Where a property is true except in a corner,
  the statement excludes the corner and the corner is a property of its own.
* `seeded/LOG.jsonl` – wrong programs (one edit of a model definition each) and the theorems that failed on them; made with `tools/seed.py`.
* `tools/manifest.py` regenerates `MANIFEST.json`, `tools/assumptions.py` the table of axioms below.

## Trusted base

* Coq 8.16.1 kernel (and `vm_compute` for the concrete witnesses).
* The axioms of the standard library listed per theorem below. No axiom of our own, no other library's.
* The reading of the Go source into Gallina (cited line by line). Go `float64` operations are taken to be IEEE-754
  double operations without fused multiply-add (Go permits fusing on some architectures, not amd64).
* `assert` is a no-op in the release build (`release.go`); assertions are modelled as preconditions, not as checks.
* `INFINITY` in the code is `math.MaxFloat64`, a finite number; the model says the same.
* Properties proved over `R` are about the same program text run with exact real numbers; rounding is not bounded.
  Properties that involve only comparisons, min and max, and all the bookkeeping, are proved for `F` or for every number type.
* Counters (`stamp`, ids) are unbounded naturals where the code has 64-bit unsigned integers.
* Go's garbage collector and `sync.Pool` are "some unused address".

### Print Assumptions, per theorem

<!-- assumptions -->
<!-- end assumptions -->

## What is modelled

| Go file | Model file | left out |
|---|---|---|
| vector.go, bb.go, transform.go | Vector.v, BB.v, Transform.v | String, Clone |
| body.go (state, integration, mass, frames) | Body.v; lists of arbiters and constraints: Threads.v; sleeping: Space.v, SpaceCb.v | custom velocity/position functions, plain getters |
| circle.go, segment.go, poly.go, shape.go, everything.go (moments, areas) | Shapes.v; mass info and setters: ShapeMass.v; hull: Hull.v | plain getters |
| collision.go, everything.go (contacts) | Collision.v | |
| arbiter.go, contactbuffer.go, hashset_arbiter.go | Solver.v (numbers), Handlers.v (callbacks), Contacts.v (memory), Threads.v (lists), Space.v (states) | |
| the ten joints, constraint.go | Solver.v; lists: Threads.v | |
| hashset.go | HashSet.v | |
| bbtree.go, spatialindex.go | BBTree.v (values), BBTreeHeap.v (the same code with its nodes, parent pointers, pair lists and free lists in a heap; proved to agree) | collisionId (a hint) |
| spacehash.go | SpaceHash.v | recycling of bin structs |
| space.go | Space.v (bookkeeping and phases of Step), Step.v (the numbers of Step), SpaceCb.v (re-entrant calls), PostStep.v, Handlers.v, Contacts.v, Query.v | |
| polyline.go, march.go | Polyline.v, March.v | |

Not modelled: `draw.go` (debug drawing), `String()` methods, `DebugInfo`, examples, goroutine races (the library is
single-threaded by contract).

The models overlap at their borders: Space.v treats positions, contacts and callback answers as inputs of a step
(so its theorems hold for all of them); Solver.v treats the contacts as given; Contacts.v treats narrow phase and solver
as inputs; Query.v composes BBTree.v, Shapes.v and Collision.v; Step.v composes
Body.v and Solver.v over whole steps, with the contacts found as input.

## Plan per property

@PLAN@
