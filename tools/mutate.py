#!/usr/bin/env python3
# Mutation testing of the theorems.  usage: mutate.py SPECS.json
# SPECS.json: list of {"file","definition","old","new","edit","claim"}; file is relative to theories/.
# Each edit is applied to a scratch copy of rocq/ in /root/mut, the dependent
# files are rebuilt, proofs that fail are replaced by Admitted there, and the
# property theorems that then depend on an admitted lemma are reported.
import sys, os, re, json, subprocess, shutil
SRC = os.environ.get("MUTSRC", "/verif/rocq"); W = os.environ.get("MUTDIR", "/root/mut")
files = [l.strip() for l in open(f"{SRC}/_CoqProject") if l.strip().endswith(".v")]
names = [os.path.basename(f)[:-2] for f in files]
def deps(n):
    s = open(f"{SRC}/theories/{n}.v").read()
    d = set()
    for m in re.finditer(r"From Verif Require Import([^.]*)\.", s): d |= set(m.group(1).split())
    return d
D = {n: deps(n) for n in names}
def dependents(n):
    r = {n}
    for x in names:
        if D[x] & r: r.add(x)
    return [x for x in names if x in r]
def coqc(n, to=int(os.environ.get("MUTTIME", "600"))):
    # a proof that runs out of time counts as failed at the sentence reached
    try:
        p = subprocess.run(["coqc"] + ["-time"] * (n != "ZZ") + ["-Q", "theories", "Verif", f"theories/{n}.v"], cwd=W, capture_output=True, timeout=to)
        return p.returncode, (p.stdout + p.stderr).decode()
    except subprocess.TimeoutExpired as e:
        c = re.findall(r"Chars \d+ - (\d+)", (e.stdout or b"").decode())
        if not c: return 2, "timeout"
        ln = open(f"{W}/theories/{n}.v", "rb").read()[:int(c[-1]) + 1].count(b"\n") + 1
        return 2, f'File "{n}.v", line {ln}, timeout'
def run(spec):
    n = spec["file"][:-2]
    for x in names:
        shutil.copy2(f"{SRC}/theories/{x}.v", f"{W}/theories/{x}.v")
        for e in (".vo",):
            a = f"{SRC}/theories/{x}{e}"
            shutil.copy2(a, f"{W}/theories/{x}{e}")
    p = f"{W}/theories/{n}.v"; s = open(p).read()
    c = s.count(spec["old"])
    if c != 1: return {"error": f"old text occurs {c} times"}
    open(p, "w").write(s.replace(spec["old"], spec["new"]))
    admitted = []; broken = []
    for x in dependents(n):
        for _ in range(80):
            rc, out = coqc(x)
            if rc == 0: break
            m = re.search(r'File "[^"]*", line (\d+)', out)
            if not m: broken.append((x, out[-300:])); break
            ln = int(m.group(1)); q = f"{W}/theories/{x}.v"; t = open(q).read()
            L = t.split("\n"); off = sum(len(l) + 1 for l in L[:ln-1])
            ms = [k for k in re.finditer(r"^\s*(?:#\[[^\]]*\]\s*)?(?:Lemma|Theorem|Example|Corollary|Fact|Remark)\s+(\w+)", t, re.M) if k.start() <= off + len(L[ln-1])]
            if not ms: broken.append((x, out[-300:])); break
            k = ms[-1]; nm = k.group(1)
            pr = t.find("Proof", k.start()); en = re.compile(r"\b(Qed|Defined)\.").search(t, pr)
            pa = t.find("Print Assumptions", k.start())
            if pr < 0 or (x, nm) in admitted: broken.append((x, nm, out[-300:])); break
            admitted.append((x, nm))
            open(q, "w").write(t[:pr] + "Proof. Admitted." + t[en.end():])
        else: broken.append((x, "too many"))
        if broken and broken[-1][0] == x: break
    failed = []
    if not broken:
        chk = []
        for x in names:
            if x.startswith("Properties_") and x in dependents(n):
                for m in re.finditer(r"^\s*Theorem\s+(C\d+_\w+)", open(f"{W}/theories/{x}.v").read(), re.M): chk.append((x, m.group(1)))
        if chk:
            t = "From Verif Require Import " + " ".join(sorted({x for x, _ in chk})) + ".\n"
            for x, m in chk: t += f'Goal True. idtac "@@{m}". Abort.\nPrint Assumptions {x}.{m}.\n'
            open(f"{W}/theories/ZZ.v", "w").write(t)
            rc, out = coqc("ZZ")
            adm = {a for _, a in admitted}
            for part in out.split("@@")[1:]:
                nm = part.split()[0]
                if nm in adm or any(re.search(rf"\b{a}\b", part[len(nm):]) for a in adm): failed.append(nm)
            if rc: broken.append(("ZZ", out[-300:]))
    ex = [f"{x}.{a}" for x, a in admitted if x.startswith("Properties_") and a not in failed]
    return {"failed": failed, "lemmas": [f"{x}.{a}" for x, a in admitted], "broken": broken, "examples": ex}
if __name__ == "__main__":
    os.makedirs(f"{W}/theories", exist_ok=True)
    specs = json.load(open(sys.argv[1]))
    for sp in specs:
        r = run(sp)
        print("==", sp["file"], sp["definition"], "|", sp["edit"])
        print("   failed:", r.get("failed"), "lemmas:", r.get("lemmas"), r.get("examples"), r.get("error", ""), r.get("broken") or "")
        sys.stdout.flush()
        ok = bool(r.get("failed"))
        if "error" not in r and not r.get("broken"):
            e = {"definition": f'{sp["file"]}: {sp["definition"]}', "edit": sp["edit"], "claim": sp["claim"],
                 "theorems_failed": r["failed"], "theorems_tightened": sp.get("tightened", []),
                 "first_failing_lemmas": r["lemmas"][:4]}
            if not ok: e["survived"] = True
            open("/root/mut/out.jsonl", "a").write(json.dumps(e) + "\n")
