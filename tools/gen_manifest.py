"""Write MANIFEST.json from the table below (property -> status, theorems, note)."""
import json, os
HERE = os.path.dirname(os.path.abspath(__file__))
CLAIMS = {}
def claim(pid, status, theorems, note=""):
    CLAIMS[pid] = dict(property=pid, status=status, theorems=theorems.split(), note=note)

claim("C01", "proved", "geom1d_normal_form")
claim("C02", "proved", "geom1d_construction_union")
claim("C03", "proved", "geom1d_locate_exact", "The docstring example locate(1.5) -> 0 is wrong, see geom1d_locate_docstring_refuted.")
claim("C04", "proved", "geom1d_ops_pointwise")
claim("C05", "proved", "geom1d_canonical geom1d_boolean_laws geom1d_named_laws")
claim("C06", "proved", "geom1d_buffer_minkowski", "Exact at every point with closed-open intervals.")
claim("C07", "proved", "geom1d_buffer_erosion geom1d_opening")
claim("C08", "proved", "geom1d_measure_laws geom1d_measure_interval")
claim("C09", "proved", "geom1d_empty_bounded_exact", "math.isfinite's conversion of huge rationals to float is not modelled.")
claim("C10", "proved", "geom1d_pieces_filter")
claim("C11", "proved", "geom1d_rejects_exactly")
claim("C65", "proved", "exact_conversion")

exec(open(os.path.join(HERE, "claims_more.py")).read()) if os.path.exists(os.path.join(HERE, "claims_more.py")) else None
props = [json.loads(l)["id"] for l in open(os.path.join(HERE, "..", "properties.jsonl"))]
out = [CLAIMS[p] for p in props if p in CLAIMS]
json.dump({"claims": out}, open(os.path.join(HERE, "..", "MANIFEST.json"), "w"), indent=1)
print(len(out), "claims of", len(props))
