"""Writes DESIGN.md from the property list, MANIFEST.json and the text below."""
import json, os, re, glob
root = os.path.join(os.path.dirname(__file__), "..")
props = [json.loads(l) for l in open(os.path.join(root, "properties.jsonl"))]
claims = {c["property"]: c for c in json.load(open(os.path.join(root, "MANIFEST.json")))["claims"]}
where = {}
for f in sorted(glob.glob(os.path.join(root, "rocq/theories/Properties_*.v"))):
    for name in re.findall(r"^Theorem (\w+)", open(f).read(), re.M):
        where[name] = os.path.basename(f)[:-2]

HOW = {}
def H(ids, text):
    for i in ids.split():
        HOW[i] = text
H("C01 C02 C04 C06 C07", "array function of all three branches (below, at, beyond the critical angle); real algebra with sin^2+cos^2=1 and explicit denominators")
H("C03", "the raise condition of the model characterised by an iff over the whole angle array")
H("C05", "both directions: inside the mask the coefficients are 1, outside they are strictly below 1")
H("C08", "case split at the critical angle; counterexample beyond it")
H("C09 C10 C11", "direct computation on the modelled helper, NaN as None")
H("C12 C14 C15 C17", "induction over the list of events of a trajectory, trajectories independent")
H("C13", "exact direction for directions along z; counterexample for another direction")
H("C16", "inverse-transform law: step <= L iff the draw is below 1-exp(-mu L)")
H("C18 C19 C20", "draws are arguments; trigonometric identities; square roots by sqr_inj arguments")
H("C21 C98 C110", "numpy's choice modelled by cumulative sums; induction shows that a draw falls in exactly one interval, of length the item's share")
H("C111", "as C110 for both stages; the joint law compared with the intended one by an iff over all tables, and a 3x2 counterexample")
H("C22 C23 C24 C88", "first-exit search over the event list: induction, uniqueness of the least index")
H("C25 C26 C33 C35 C64 C65 C66", "refutation by an explicit or universally quantified counterexample, plus the positive case proved by the same lemmas as the neighbouring property")
H("C27 C29 C30 C31 C32 C34", "per-trajectory weight splits summed over arbitrary lists of trajectories; the re-run recursion by induction on the call depth with adversarial draws")
H("C28", "two-interface series in closed form, bounds by algebra")
H("C36", "induction over fuel: the depth counter decreases, so fuel above the limit never runs out")
H("C37 C38 C40 C41 C100 C101", "vector algebra on the exact rational/sqrt expressions")
H("C39 C42 C43", "universally quantified failure of the formula and the special case that is right")
H("C44", "ratio of partial sums of non-negative weights")
H("C45 C46 C47 C75 C76 C77 C78", "sums over events and trajectories regrouped (double-sum exchange), functional array updates")
H("C48", "the numpy formula equals 1/(1 - n c(q)) with c(q) the Fourier integral of the direct correlation function, evaluated by an explicit antiderivative (Coquelicot is_RInt)")
H("C49 C71 C72 C73 C74", "positivity by writing the factor as a modulus squared or a quotient of positive terms; limits as epsilon-delta statements")
H("C50 C55 C70", "linear interpolation as a convex combination, induction over the sorted table")
H("C51 C52 C53 C67", "complex algebra; Bruggeman through its quadratic/cubic and the intermediate value bound of any root fsolve may return; imaginary parts by sign analysis of Csqrt")
H("C54 C69", "one generic lemma per Cauchy formula, then a table of all oils")
H("C68", "each Sellmeier formula bounded on [0.4, 0.7] um by monotonicity of its terms")
H("C56 C79 C80 C81", "the whole calculation as a function of abstract differential cross sections P, S; trapezoid sums are positive linear functionals")
H("C57", "linearity, positivity and interval additivity of the trapezoid rule by induction over the grid")
H("C58 C86 C87", "weights over the fixed 50-point grid, norm positive; Gamma function abstract and positive")
H("C59 C60 C90 C91", "sums of complex amplitudes over an arbitrary list; Cauchy-Schwarz by induction")
H("C61 C62 C93 C94 C95 C96 C97 C99", "table-driven code: index arithmetic on sorted lists, nearest-index lookups, np.split as list partition")
H("C63", "rotation matrices; mirror law derived from the Rodrigues-like formula")
H("C82 C112", "field identities with the degenerate concentrations treated separately")
H("C83", "telescoping sum over layers")
H("C84 C116", "exceptions are results: equality with Err, for all other arguments")
H("C85 C113", "composition of the form- and structure-factor lemmas: finite, non-negative at every grid angle; integrals of non-negative functions")
H("C89 C92 C102", "closed form of the returned number for every input compared with the documented one")
H("C103", "composition of initialize, sample_*, absorb, scatter, move and calc_refl_trans; invariants (unit directions, start inside, non-increasing weights) feed the energy theorem")
H("C104 C105 C106 C107 C108 C109", "complex 3-vectors; induction over the events of a trajectory; orthogonality and norm as invariants")
H("C114", "both code paths reduced to the same trapezoid sums of the same differential cross section")
H("C117", "squared moduli of complex quotients, reduced to real inequalities")
H("C118", "closed form of the calculation for an abstract non-negative integrator, then real analysis of exp")
H("C115", "closed form and exp/modulus identities")
exec(open(os.path.join(os.path.dirname(__file__), "design_extra.py")).read())

MAIN = open(os.path.join(os.path.dirname(__file__), "design_head.md")).read()
out = [MAIN, "\n## 4. Per property\n"]
out.append("Each entry: status; what is modelled (the Properties file names the theory; its imports name the model files); how it is proved; theorems; what is missing or false.\n")
for p in props:
    c = claims[p["id"]]
    files = sorted({where[t] for t in c["theorems"] if t in where})
    anch = ", ".join(p["anchors"]) if isinstance(p["anchors"], list) else p["anchors"]
    out.append("* **%s %s** (%s). Models %s, in `%s`. Proof: %s. Theorems: %s.%s" % (
        p["id"], p["title"], c["status"], anch, "`, `".join(files), HOW.get(p["id"], "see the file"),
        ", ".join("`%s`" % t for t in c["theorems"]), (" " + c["note"]) if c["note"] else ""))
missing = [p["id"] for p in props if p["id"] not in HOW]
if missing: print("no technique:", missing)
out.append("\n" + open(os.path.join(os.path.dirname(__file__), "design_tail.md")).read())
open(os.path.join(root, "DESIGN.md"), "w").write("\n".join(out))
print(len(props), "entries")
