#!/bin/sh
# DESIGN.md is its template without the insertion marks
sed '/^@@.*@@$/d' /verif/tools/design.tmpl.md > /verif/DESIGN.md
